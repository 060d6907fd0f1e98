(** Property C63: a model that is linear in its only constant is fitted by least squares. *)
From Coq Require Import QArith Qabs Qminmax Lqa.
From Verif Require Import Base BaseLemmas Node Tree NodeProofs Compile CompileProofs Eval EvalProofs EvalTop Deriv DerivSpec DerivTop DerivReach PropEval
  Rng Registry Complexity ComplexitySpec ComplexityProofs PropComplexity Num Instances Member Dataset PropDataset Loss PropSelection PropLoss Optim PropOptim PropOptimTotal ConstOpt PropConstOpt PropQuasi PropLine.
Local Open Scope Q_scope.

(** ** Specification *)

(** No constant occurs. *)
Fixpoint const_free (t : tree) : bool :=
  match t with TVar _ => true | TConst _ => false | TOp _ ts => forallb const_free ts end.
(** Built from the constant and constant-free parts by negation, addition, subtraction, and multiplication and division by constant-free
    parts: operator ids as in the builtin set (neg 22; add 0, sub 7, mul 5, div 2; fused multiply-add 1). *)
Fixpoint linear (t : tree) : bool :=
  const_free t
  || match t with
     | TConst 0 => true
     | TOp 22 [a] => linear a
     | TOp 0 [a; b] | TOp 7 [a; b] => linear a && linear b
     | TOp 5 [a; b] => const_free a && linear b || linear a && const_free b
     | TOp 2 [a; b] => linear a && const_free b
     | TOp 1 [a; b; c] => (const_free a && linear b || linear a && const_free b) && linear c
     | _ => false
     end.

(** ** Linear expressions *)
Local Notation O := (rational_ops xqops).
Section Row.
Context (D nf : nat) (var : nat -> xq) (Hvar : forall f, (f < nf)%nat -> exists q, var f = XF q) (cst : Q -> nat -> xq) (Hcst : forall c, cst c 0%nat = XF c).
Local Notation ev c := (teval O var (cst c)).
Local Notation fin c := (tfinite xqops O var (cst c)).
Local Notation der c := (tder xqops O var (cst c) (no_seed xqops) (one_hot xqops 0) true).
Local Notation ok := (tree_ok D nf 1 (oknown O)).

Lemma known1 op : oknown O 1 op = true -> (op = 17 \/ op = 22)%nat.
Proof. intros H. do 23 (destruct op as [|op]; [try discriminate; auto|]). discriminate. Qed.
Lemma known2 op : oknown O 2 op = true -> (op = 0 \/ op = 2 \/ op = 5 \/ op = 7)%nat.
Proof. intros H. do 8 (destruct op as [|op]; [try discriminate; auto|]). discriminate. Qed.
Lemma known3 op : oknown O 3 op = true -> (op = 1)%nat.
Proof. intros H. do 2 (destruct op as [|op]; [try discriminate; auto|]). discriminate. Qed.
Lemma ok_args op ts : ok (TOp op ts) -> Forall ok ts.
Proof.
  intros (_ & _ & H). induction ts as [|t ts IH]; constructor; cbn [map fold_right] in H; tauto.
Qed.
Lemma fin_value c t : ok t -> fin c t = true -> exists q, ev c t = XF q.
Proof.
  destruct t as [f|i|op ts]; cbn [tfinite teval]; auto.
  - cbn [tree_ok]. intros Hi _. exists c. replace i with 0%nat by lia. auto.
  - intros _ H. apply andb_true_iff in H as [_ H]. cbn [ffinite xqops] in H. destruct (oeval _ _ _ _) as [q| |]; try discriminate. eauto.
Qed.
(** Constant-free parts do not depend on the constant. *)
Lemma free_same c c' t : const_free t = true -> ev c t = ev c' t /\ fin c t = fin c' t.
Proof.
  induction t as [f|i|op ts IH] using tree_ind'; cbn [const_free teval tfinite]; auto; [discriminate|]. intros H.
  assert (E : map (ev c) ts = map (ev c') ts /\ forallb (fin c) ts = forallb (fin c') ts).
  { induction IH as [|t ts Ht _ IHts]; auto. cbn [forallb] in H. apply andb_true_iff in H as [H1 H2]. destruct (Ht H1) as [E1 E2]. destruct (IHts H2) as [E3 E4].
    cbn [map forallb]. rewrite E1, E2, E3, E4. auto. }
  destruct E as [-> ->]. auto.
Qed.

Lemma xdiv_fin a b q : xdiv (XF a) (XF b) = XF q -> ~ b == 0 /\ q = a / b.
Proof.
  unfold xdiv. destruct (Qeq_bool b 0) eqn:E; [destruct (Qeq_bool a 0); discriminate|]. intros [= <-]. split; auto. intros H. apply Qeq_bool_iff in H. congruence.
Qed.
Lemma xdiv_ok a b : ~ b == 0 -> xdiv (XF a) (XF b) = XF (a / b).
Proof. intros H. unfold xdiv. destruct (Qeq_bool b 0) eqn:E; auto. apply Qeq_bool_iff in E. contradiction. Qed.

(** Their derivative vanishes. *)
Lemma free_der c t : ok t -> const_free t = true -> fin c t = true -> exists z, der c t = XF z /\ z == 0.
Proof.
  induction t as [f|i|op ts IH] using tree_ind'; cbn [const_free]; try discriminate.
  { intros _ _ _. exists 0. split; reflexivity. }
  intros Hok Hf Hfin. pose proof Hok as (_ & Hk & _). apply ok_args in Hok. cbn [tfinite] in Hfin. apply andb_true_iff in Hfin as [Hs Hv].
  assert (HZ : Forall (fun t => exists q z, ev c t = XF q /\ der c t = XF z /\ z == 0) ts).
  { clear Hv Hk. induction IH as [|t ts Ht _ IHts]; constructor; apply Forall_cons_iff in Hok as [K1 K2]; cbn [forallb] in Hf, Hs; apply andb_true_iff in Hf as [F1 F2]; apply andb_true_iff in Hs as [S1 S2]; auto.
    destruct (fin_value c t K1 S1) as [q Eq]. destruct (Ht K1 F1 S1) as (z & Ez & Hz). eauto. }
  clear IH Hf Hs Hok. cbn [tder].
  destruct ts as [|t1 [|t2 [|t3 [|t4 ts]]]]; cbn [List.length map] in *.
  - exists 0. split; reflexivity.
  - inversion HZ as [|? ? (q1 & z1 & E1 & D1 & Z1) _]; subst. rewrite E1 in *. cbn [der_step]. rewrite D1.
    destruct (forallb _ _); [exists 0; split; reflexivity|].
    destruct (known1 op Hk) as [-> | ->]; cbn [oeval opartial rational_ops fdiv fone fneg fmul xqops xmul xneg] in *.
    + destruct (xdiv (XF 1) (XF q1)) as [q| |] eqn:E; try discriminate. apply xdiv_fin in E as [Hq _].
      rewrite xdiv_ok by (intros Hz; apply Qmult_integral in Hz as [?|?]; auto). cbn [xmul]. eexists. split; [reflexivity|]. rewrite Z1. ring.
    + eexists. split; [reflexivity|]. rewrite Z1. ring.
  - inversion HZ as [|? ? (q1 & z1 & E1 & D1 & Z1) HZ2]; subst. inversion HZ2 as [|? ? (q2 & z2 & E2 & D2 & Z2) _]; subst. rewrite E1, E2 in *. cbn [der_step]. rewrite D1, D2.
    destruct (true && forallb _ _)%bool; [exists 0; split; reflexivity|].
    destruct (known2 op Hk) as [-> | [-> | [-> | ->]]]; cbn [oeval opartial rational_ops fdiv fone fneg fmul fadd xqops xmul xadd xneg] in *; try (eexists; split; [reflexivity|]; rewrite Z1, Z2; ring).
    destruct (xdiv (XF q1) (XF q2)) as [q| |] eqn:E; try discriminate. apply xdiv_fin in E as [Hq _].
    rewrite !xdiv_ok by (auto; intros Hz; apply Qmult_integral in Hz as [?|?]; auto). cbn [xmul xadd]. eexists. split; [reflexivity|]. rewrite Z1, Z2. ring.
  - inversion HZ as [|? ? (q1 & z1 & E1 & D1 & Z1) HZ2]; subst. inversion HZ2 as [|? ? (q2 & z2 & E2 & D2 & Z2) HZ3]; subst. inversion HZ3 as [|? ? (q3 & z3 & E3 & D3 & Z3) _]; subst.
    rewrite E1, E2, E3 in *. cbn [der_step]. rewrite D1, D2, D3. rewrite (known3 op Hk) in *.
    eexists; split; [reflexivity|]. rewrite Z1, Z2, Z3; ring.
  - discriminate.
Qed.

(** Value a + b c and derivative b, finite for every constant [c]. *)
Definition affine (t : tree) : Prop :=
  exists a b, forall c, fin c t = true /\ (exists v, ev c t = XF v /\ v == a + b * c) /\ (exists g, der c t = XF g /\ g == b).
(** Value [a] and derivative 0. *)
Definition fixed (t : tree) : Prop :=
  exists a, forall c, fin c t = true /\ (exists v, ev c t = XF v /\ v == a) /\ (exists g, der c t = XF g /\ g == 0).

Lemma dead_zero c t g : der c t = XF g -> dead_leaf xqops (no_seed xqops) (one_hot xqops 0) t = true -> g == 0.
Proof.
  destruct t as [f|[|i]|op ts]; cbn [dead_leaf tder]; try discriminate; unfold no_seed, one_hot; cbn; intros [= <-]; reflexivity || discriminate.
Qed.
Lemma bin_der c op t1 t2 g1 g2 p0 p1 : der c t1 = XF g1 -> der c t2 = XF g2 ->
  opartial O 2 op [ev c t1; ev c t2] 0 = XF p0 -> opartial O 2 op [ev c t1; ev c t2] 1 = XF p1 ->
  exists z, der c (TOp op [t1; t2]) = XF z /\ z == p0 * g1 + p1 * g2.
Proof.
  intros D1 D2 P0 P1. cbn [tder map List.length der_step]. rewrite D1, D2, P0, P1. cbn [forallb andb].
  match goal with |- context [if ?b then _ else _] => destruct b eqn:Ed end.
  - apply andb_true_iff in Ed as [E1 E2]. apply andb_true_iff in E2 as [E2 _]. exists 0. split; [reflexivity|].
    rewrite (dead_zero c t1 g1 D1 E1), (dead_zero c t2 g2 D2 E2). ring.
  - eexists. split; [reflexivity|]. reflexivity.
Qed.
Lemma free_fixed c0 t : ok t -> const_free t = true -> fin c0 t = true -> fixed t.
Proof.
  intros Hok Hf Hfin. destruct (fin_value c0 t Hok Hfin) as [a Ea]. exists a. intros c. destruct (free_same c c0 t Hf) as [E1 E2].
  assert (Hfc : fin c t = true) by (rewrite E2; exact Hfin). split; auto. split; [exists a; rewrite E1; split; [auto|reflexivity]|]. apply free_der; auto.
Qed.
Lemma fixed_affine t : fixed t -> affine t.
Proof.
  intros (a & H). exists a, 0. intros c. destruct (H c) as (H1 & (v & H2 & H3) & H4). split; auto. split; auto. exists v. split; auto. rewrite H3. ring.
Qed.
Lemma linear_affine c0 t : ok t -> linear t = true -> fin c0 t = true -> affine t.
Proof.
  revert t.
  assert (HF : forall t, ok t -> const_free t = true -> fin c0 t = true -> fixed t) by (intros; eapply free_fixed; eauto).
  induction t as [f|i|op ts IH] using tree_ind'; intros Hok Hl Hfin.
  - apply fixed_affine. auto.
  - cbn [linear const_free orb] in Hl. destruct i; try discriminate. exists 0, 1. intros c. split; auto. cbn [teval tder]. rewrite Hcst.
    split; [exists c; split; [auto|ring]|]. exists 1. split; [reflexivity|reflexivity].
  - cbn [linear] in Hl. destruct (const_free (TOp op ts)) eqn:Ef; [apply fixed_affine; auto|]. cbn [orb] in Hl. clear Ef.
    pose proof (ok_args op ts Hok) as Ha. destruct Hok as (_ & Hk & _). cbn [tfinite] in Hfin. apply andb_true_iff in Hfin as [Hs Hv].
    destruct ts as [|t1 [|t2 [|t3 [|t4 ts]]]]; cbn [List.length] in Hk; try discriminate.
    + inversion IH as [|? ? I1 _]; subst. inversion Ha as [|? ? K1 _]; subst. cbn [forallb] in Hs. apply andb_true_iff in Hs as [S1 _].
      destruct (known1 op Hk) as [-> | ->]; cbn in Hl; try discriminate.
      destruct (I1 K1 Hl S1) as (a & b & H). exists (- a), (- b). intros c. destruct (H c) as (H1 & (v & H2 & H3) & (g & H4 & H5)).
      cbn [tfinite teval tder forallb map List.length]. rewrite H1, H2, H4. split; [reflexivity|]. split; [eexists; split; [reflexivity|]; rewrite H3; ring|].
      cbn [der_step]. match goal with |- context [forallb ?f ?l] => destruct (forallb f l) eqn:Ed end.
      * cbn [map forallb] in Ed. exists 0. split; [reflexivity|]. rewrite <- H5. rewrite (dead_zero c t1 g H4) by (now rewrite andb_true_r in Ed). ring.
      * eexists. split; [reflexivity|]. rewrite H5. ring.
    + inversion IH as [|? ? I1 IH2]; subst. inversion IH2 as [|? ? I2 _]; subst. inversion Ha as [|? ? K1 Ha2]; subst. inversion Ha2 as [|? ? K2 _]; subst. cbn [forallb] in Hs. apply andb_true_iff in Hs as [S1 S2]. apply andb_true_iff in S2 as [S2 _].
      destruct (known2 op Hk) as [-> | [-> | [-> | ->]]]; cbn in Hl; try discriminate.
      * apply andb_true_iff in Hl as [L1 L2]. destruct (I1 K1 L1 S1) as (a1 & b1 & H1). destruct (I2 K2 L2 S2) as (a2 & b2 & H2).
        exists (a1 + a2), (b1 + b2). intros c. destruct (H1 c) as (F1 & (v1 & V1 & W1) & (g1 & G1 & B1)). destruct (H2 c) as (F2 & (v2 & V2 & W2) & (g2 & G2 & B2)).
        split; [cbn [tfinite forallb map List.length]; rewrite F1, F2, V1, V2; reflexivity|].
        split; [cbn [teval map List.length]; rewrite V1, V2; eexists; split; [reflexivity|]; rewrite W1, W2; ring|].
        destruct (bin_der c 0 t1 t2 g1 g2 1 1 G1 G2) as (z & -> & Hz); try (rewrite V1, V2; reflexivity). exists z. split; auto. rewrite Hz, B1, B2. ring.
      * apply andb_true_iff in Hl as [L1 L2]. destruct (I1 K1 L1 S1) as (a1 & b1 & H1). destruct (HF t2 K2 L2 S2) as (a2 & H2).
        assert (Hz : ~ a2 == 0).
        { destruct (H1 c0) as (_ & (v1 & V1 & W1) & _). destruct (H2 c0) as (_ & (v2 & V2 & W2) & _). cbn [map List.length] in Hv. rewrite V1, V2 in Hv. cbn [oeval rational_ops fdiv xqops ffinite] in Hv.
          destruct (xdiv (XF v1) (XF v2)) as [q| |] eqn:E; try discriminate. apply xdiv_fin in E as [Hq _]. rewrite <- W2. exact Hq. }
        exists (a1 / a2), (b1 / a2). intros c. destruct (H1 c) as (F1 & (v1 & V1 & W1) & (g1 & G1 & B1)). destruct (H2 c) as (F2 & (v2 & V2 & W2) & (g2 & G2 & B2)).
        assert (Hz2 : ~ v2 == 0) by (rewrite W2; exact Hz).
        assert (Ev : oeval O 2 2 [XF v1; XF v2] = XF (v1 / v2)) by (apply (xdiv_ok v1 v2 Hz2)).
        split; [cbn [tfinite forallb map List.length]; rewrite F1, F2, V1, V2, Ev; reflexivity|].
        split; [cbn [teval map List.length]; rewrite V1, V2, Ev; eexists; split; [reflexivity|]; rewrite W1, W2; field; auto|].
        destruct (bin_der c 2 t1 t2 g1 g2 (1 / v2) ((- v1) / (v2 * v2)) G1 G2) as (z & -> & Hz3); try (rewrite V1, V2).
        { apply (xdiv_ok 1 v2 Hz2). } { apply (xdiv_ok (- v1) (v2 * v2)). intros X. apply Qmult_integral in X as [?|?]; auto. }
        exists z. split; auto. rewrite Hz3, B1, B2, W2. field. auto.
      * apply orb_true_iff in Hl as [Hl|Hl]; apply andb_true_iff in Hl as [L1 L2].
        -- destruct (HF t1 K1 L1 S1) as (a1 & H1). destruct (I2 K2 L2 S2) as (a2 & b2 & H2).
           exists (a1 * a2), (a1 * b2). intros c. destruct (H1 c) as (F1 & (v1 & V1 & W1) & (g1 & G1 & B1)). destruct (H2 c) as (F2 & (v2 & V2 & W2) & (g2 & G2 & B2)).
           split; [cbn [tfinite forallb map List.length]; rewrite F1, F2, V1, V2; reflexivity|].
           split; [cbn [teval map List.length]; rewrite V1, V2; eexists; split; [reflexivity|]; rewrite W1, W2; ring|].
           destruct (bin_der c 5 t1 t2 g1 g2 v2 v1 G1 G2) as (z & -> & Hz); try (rewrite V1, V2; reflexivity). exists z. split; auto. rewrite Hz, B1, B2, W1. ring.
        -- destruct (I1 K1 L1 S1) as (a1 & b1 & H1). destruct (HF t2 K2 L2 S2) as (a2 & H2).
           exists (a1 * a2), (b1 * a2). intros c. destruct (H1 c) as (F1 & (v1 & V1 & W1) & (g1 & G1 & B1)). destruct (H2 c) as (F2 & (v2 & V2 & W2) & (g2 & G2 & B2)).
           split; [cbn [tfinite forallb map List.length]; rewrite F1, F2, V1, V2; reflexivity|].
           split; [cbn [teval map List.length]; rewrite V1, V2; eexists; split; [reflexivity|]; rewrite W1, W2; ring|].
           destruct (bin_der c 5 t1 t2 g1 g2 v2 v1 G1 G2) as (z & -> & Hz); try (rewrite V1, V2; reflexivity). exists z. split; auto. rewrite Hz, B1, B2, W2. ring.
      * apply andb_true_iff in Hl as [L1 L2]. destruct (I1 K1 L1 S1) as (a1 & b1 & H1). destruct (I2 K2 L2 S2) as (a2 & b2 & H2).
        exists (a1 - a2), (b1 - b2). intros c. destruct (H1 c) as (F1 & (v1 & V1 & W1) & (g1 & G1 & B1)). destruct (H2 c) as (F2 & (v2 & V2 & W2) & (g2 & G2 & B2)).
        split; [cbn [tfinite forallb map List.length]; rewrite F1, F2, V1, V2; reflexivity|].
        split; [cbn [teval map List.length]; rewrite V1, V2; eexists; split; [reflexivity|]; rewrite W1, W2; ring|].
        destruct (bin_der c 7 t1 t2 g1 g2 1 (- (1)) G1 G2) as (z & -> & Hz); try (rewrite V1, V2; reflexivity). exists z. split; auto. rewrite Hz, B1, B2. ring.
    + rewrite (known3 op Hk) in *. inversion IH as [|? ? I1 IH2]; subst. inversion IH2 as [|? ? I2 IH3]; subst. inversion IH3 as [|? ? I3 _]; subst.
      inversion Ha as [|? ? K1 Ha2]; subst. inversion Ha2 as [|? ? K2 Ha3]; subst. inversion Ha3 as [|? ? K3 _]; subst.
      cbn [forallb] in Hs. apply andb_true_iff in Hs as [S1 S2]. apply andb_true_iff in S2 as [S2 S3]. apply andb_true_iff in S3 as [S3 _].
      cbn in Hl. apply andb_true_iff in Hl as [Hl L3]. destruct (I3 K3 L3 S3) as (a3 & b3 & H3).
      apply orb_true_iff in Hl as [Hl|Hl]; apply andb_true_iff in Hl as [L1 L2].
      * destruct (HF t1 K1 L1 S1) as (a1 & H1). destruct (I2 K2 L2 S2) as (a2 & b2 & H2).
        exists (a1 * a2 + a3), (a1 * b2 + b3). intros c. destruct (H1 c) as (F1 & (v1 & V1 & W1) & (g1 & G1 & B1)). destruct (H2 c) as (F2 & (v2 & V2 & W2) & (g2 & G2 & B2)). destruct (H3 c) as (F3 & (v3 & V3 & W3) & (g3 & G3 & B3)).
        cbn [tfinite teval tder forallb map List.length der_step]. rewrite F1, F2, F3, V1, V2, V3, G1, G2, G3. split; [reflexivity|].
        split; eexists; (split; [reflexivity|]). { rewrite W1, W2, W3. ring. } { rewrite B1, B2, B3, W1. ring. }
      * destruct (I1 K1 L1 S1) as (a1 & b1 & H1). destruct (HF t2 K2 L2 S2) as (a2 & H2).
        exists (a1 * a2 + a3), (b1 * a2 + b3). intros c. destruct (H1 c) as (F1 & (v1 & V1 & W1) & (g1 & G1 & B1)). destruct (H2 c) as (F2 & (v2 & V2 & W2) & (g2 & G2 & B2)). destruct (H3 c) as (F3 & (v3 & V3 & W3) & (g3 & G3 & B3)).
        cbn [tfinite teval tder forallb map List.length der_step]. rewrite F1, F2, F3, V1, V2, V3, G1, G2, G3. split; [reflexivity|].
        split; eexists; (split; [reflexivity|]). { rewrite W1, W2, W3. ring. } { rewrite B1, B2, B3, W2. ring. }
Qed.
End Row.

(** ** The error as a function of the constant *)
(** The prediction for row [r] when the constant is [c], and the weight and the target of the row. *)
Definition row_value (e : expr xq) (d : dataset xq) (t : tree) (c : Q) (r : nat) : Q := xval (value_at xqops O (with_consts e [XF c]) (ds_x d) t r).
Definition row_weight (d : dataset xq) (r : nat) : Q := match ds_weights d with Some w => xval (nth r w (XF 0)) | None => 1 end.
Definition row_target (d : dataset xq) (r : nat) : Q := xval (nth r (ds_y d) (XF 0)).
Definition over_rows (d : dataset xq) (f : nat -> Q) : Q := Qsum (map f (seq 0 (ds_n_rows d))).
(** The (weighted) mean squared error with constant [c]. *)
Definition error_with (e : expr xq) (d : dataset xq) (t : tree) (c : Q) : Q :=
  over_rows d (fun r => row_weight d r * ((row_value e d t c r - row_target d r) * (row_value e d t c r - row_target d r))) / over_rows d (row_weight d).
(** The (weighted) mean of the squared effect of increasing the constant by one. *)
Definition effect (e : expr xq) (d : dataset xq) (t : tree) : Q :=
  over_rows d (fun r => row_weight d r * ((row_value e d t 1 r - row_value e d t 0 r) * (row_value e d t 1 r - row_value e d t 0 r))) / over_rows d (row_weight d).
(** Features, targets and weights are numbers, weights not negative and not all zero. *)
Definition numbers (d : dataset xq) : Prop :=
  finite_list xqops (m_data (ds_x d)) /\ finite_list xqops (ds_y d)
  /\ forall w, ds_weights d = Some w -> finite_list xqops w /\ Forall (fun v => 0 <= xval v) w /\ 0 < Qsum (map xval w).

(** ** Sums *)
Lemma qsum_ext {A} (f g : A -> Q) l : (forall x, In x l -> f x == g x) -> Qsum (map f l) == Qsum (map g l).
Proof. induction l as [|x l IH]; intros H; cbn [map Qsum]; [reflexivity|]. rewrite (H x (or_introl eq_refl)), IH; [reflexivity|]. intros; apply H. now right. Qed.
Lemma qsum_plus {A} (f g : A -> Q) l : Qsum (map (fun x => f x + g x) l) == Qsum (map f l) + Qsum (map g l).
Proof. induction l as [|x l IH]; cbn [map Qsum]; [ring|]. rewrite IH. ring. Qed.
Lemma qsum_scale {A} k (f : A -> Q) l : Qsum (map (fun x => k * f x) l) == k * Qsum (map f l).
Proof. induction l as [|x l IH]; cbn [map Qsum]; [ring|]. rewrite IH. ring. Qed.
Lemma qsum_nonneg {A} (f : A -> Q) l : (forall x, In x l -> 0 <= f x) -> 0 <= Qsum (map f l).
Proof. induction l as [|x l IH]; intros H; cbn [map Qsum]; [Lqa.lra|]. pose proof (H x (or_introl eq_refl)). assert (0 <= Qsum (map f l)) by (apply IH; intros; apply H; now right). Lqa.lra. Qed.
Lemma qsum_zero {A} (f : A -> Q) l : (forall x, In x l -> 0 <= f x) -> Qsum (map f l) == 0 -> forall x, In x l -> f x == 0.
Proof.
  induction l as [|y l IH]; intros H Hs x Hx; [destruct Hx|]. cbn [map Qsum] in Hs. pose proof (H y (or_introl eq_refl)).
  assert (0 <= Qsum (map f l)) by (apply qsum_nonneg; intros; apply H; now right).
  destruct Hx as [->|Hx]; [Lqa.lra|]. apply IH; auto; [intros; apply H; now right|Lqa.lra].
Qed.
Lemma row_sum_tab {A} err (f g : A -> Q) l : row_sum err (map f l) (map g l) == Qsum (map (fun x => err (f x) (g x)) l).
Proof. induction l as [|x l IH]; cbn [map row_sum Qsum]; [reflexivity|]. rewrite IH. reflexivity. Qed.
Lemma weighted_row_sum_tab {A} err (f g h : A -> Q) l : weighted_row_sum err (map f l) (map g l) (map h l) == Qsum (map (fun x => h x * err (f x) (g x)) l).
Proof. induction l as [|x l IH]; cbn [map weighted_row_sum Qsum]; [reflexivity|]. rewrite IH. reflexivity. Qed.
Lemma combine_tab {A B D} (f : A -> B) (g : A -> D) l : combine (map f l) (map g l) = map (fun x => (f x, g x)) l.
Proof. induction l as [|x l IH]; cbn [map combine]; [auto|]. now rewrite IH. Qed.
Lemma list_tab (l : list xq) n : finite_list xqops l -> List.length l = n -> l = map (fun r => XF (xval (nth r l (XF 0)))) (seq 0 n).
Proof.
  intros H <-. apply nth_error_ext. intros i. destruct (Nat.lt_ge_cases i (List.length l)) as [Hi|Hi].
  - change (map ?f (seq 0 ?n)) with (tab n f). rewrite tab_nth by auto. rewrite (nth_error_nth' l (XF 0) Hi). f_equal.
    unfold finite_list in H. rewrite Forall_forall in H. specialize (H (nth i l (XF 0)) (nth_In _ _ Hi)). destruct (nth i l (XF 0)); try discriminate. reflexivity.
  - transitivity (@None xq); [|symmetry]; apply nth_error_None; rewrite ?map_length, ?seq_length; auto.
Qed.

(** ** The objective is a parabola *)
Section Fit.
Context (hash : list pnode -> N) (umax D : nat) (size : size_opts) (pars : xq) (ub : bool).
Let C : eval_cfg xq := mkEvalCfg xqops xq_loss_ops O hash umax D size (make_loss xqops xq_loss_ops LMse) pars ub.
Context (d : dataset xq) (e : expr xq) (t : tree) (Hd : dataset_ok d) (Hn : (1 <= ds_n_rows d)%nat) (Hok : ok_tree O D e (ds_x d) t) (H1 : List.length (consts e) = 1%nat)
  (Hlin : linear t = true) (c0 : Q) (Hc0 : completes C d (with_consts e [XF c0]) t) (Hnum : numbers d).
Local Notation X := (ds_x d).
Local Notation at_ c := (with_consts e [XF c]).
Local Notation rv := (row_value e d t).
Local Notation rows := (seq 0 (ds_n_rows d)).
Local Notation y := (row_target d).
Local Notation w := (row_weight d).
Let A r := rv 0 r.
Let B r := rv 1 r - rv 0 r.
Let Sw := over_rows d w.

Lemma row_affine c r : In r rows -> finite_at xqops O (at_ c) X t r = true /\ value_at xqops O (at_ c) X t r = XF (rv c r) /\ rv c r == A r + B r * c
  /\ exists g, grad_comp xqops O (at_ c) X false t 0 r = XF g /\ g == B r.
Proof.
  intros Hr. apply in_seq in Hr. destruct Hok as [_ Hto]. rewrite H1 in Hto. pose proof Hd as (D1 & D2 & D3 & _).
  assert (Haff : affine (mat_at xqops X r) (fun c => const_at xqops (at_ c)) t).
  { apply (linear_affine D (m_nrows X)) with (c0 := c0); auto; try (intros; reflexivity).
    - intros f Hf. unfold mat_at. destruct Hnum as [Hx _]. unfold finite_list in Hx. rewrite Forall_forall in Hx.
      assert (Hlt : (f * m_ncols X + r < List.length (m_data X))%nat) by (unfold mat_ok in D3; rewrite D3, D2; nia).
      specialize (Hx _ (nth_In _ (fnan xqops) Hlt)). destruct (nth (f * m_ncols X + r) (m_data X) (fnan xqops)) as [q| |]; try discriminate. eauto.
    - apply (proj1 Hc0). lia. }
  destruct Haff as (a & b & Haff).
  assert (Hv : forall c, rv c r == a + b * c).
  { intros c'. unfold row_value, value_at. destruct (Haff c') as (_ & (v & -> & E) & _). exact E. }
  destruct (Haff c) as (F1 & (v & V1 & W1) & (g & G1 & B1)). split; [exact F1|]. split; [|split].
  - unfold row_value, value_at. rewrite V1. reflexivity.
  - unfold A, B. rewrite !Hv. ring.
  - exists g. split; [exact G1|]. unfold B. rewrite !Hv, B1. ring.
Qed.
Lemma always_completes c : completes C d (at_ c) t.
Proof. split; [intros r Hr; apply (row_affine c r); apply in_seq; lia|]. intros i ->. destruct Hok as [_ Hto]. cbn in Hto. rewrite H1 in Hto. replace i with 0%nat by lia. reflexivity. Qed.
Lemma predictions_tab c : predictions C d (at_ c) t = map (fun r => XF (rv c r)) rows.
Proof. unfold predictions. apply map_ext_in. intros r Hr. apply (row_affine c r Hr). Qed.
Lemma targets_tab : ds_y d = map (fun r => XF (y r)) rows.
Proof. destruct Hd as (_ & _ & _ & Hy & _), Hnum as (_ & Hf & _). apply (list_tab (ds_y d) _ Hf Hy). Qed.
Lemma weights_tab l : ds_weights d = Some l -> l = map (fun r => XF (w r)) rows.
Proof. intros El. destruct Hd as (_ & _ & _ & _ & Hw), Hnum as (_ & _ & Hf). unfold row_weight. rewrite El. apply (list_tab l _ (proj1 (Hf l El)) (Hw l El)). Qed.
Lemma tab_finite (f : nat -> Q) : finite_list xqops (map (fun r => XF (f r)) rows).
Proof. apply Forall_forall. intros x Hx. apply in_map_iff in Hx as (? & <- & _). reflexivity. Qed.
Lemma tab_values (f : nat -> Q) : map xval (map (fun r => XF (f r)) rows) = map f rows.
Proof. rewrite map_map. reflexivity. Qed.
Lemma w_nonneg r : In r rows -> 0 <= w r.
Proof.
  intros Hr. unfold row_weight. destruct (ds_weights d) as [l|] eqn:El; [|Lqa.lra]. destruct Hnum as (_ & _ & Hf). destruct (Hf l El) as (_ & Hp & _).
  rewrite Forall_forall in Hp. apply Hp. apply nth_In. destruct Hd as (_ & _ & _ & _ & Hw). rewrite (Hw l El). apply in_seq in Hr. lia.
Qed.
Lemma ones_sum (l : list nat) : Qsum (map (fun _ => 1) l) == inject_Z (Z.of_nat (List.length l)).
Proof. induction l as [|x l IH]; cbn [map Qsum List.length]; [reflexivity|]. rewrite IH, Nat2Z.inj_succ. unfold Z.succ. rewrite inject_Z_plus. change (inject_Z 1) with 1. ring. Qed.
Lemma Sw_pos : 0 < Sw.
Proof.
  unfold Sw, over_rows. destruct (ds_weights d) as [l|] eqn:El.
  - destruct Hnum as (_ & _ & Hf). destruct (Hf l El) as (_ & _ & Hp). rewrite (weights_tab l El) in Hp. rewrite tab_values in Hp. exact Hp.
  - rewrite (qsum_ext w (fun _ => 1)) by (intros; unfold row_weight; rewrite El; reflexivity). rewrite ones_sum, seq_length. unfold Qlt. cbn. lia.
Qed.
Lemma mse_at c : exists l, lf_loss (ec_loss C) (predictions C d (at_ c) t) (ds_y d) (ds_weights d) = Ok (XF l) /\ l == error_with e d t c.
Proof.
  pose proof Sw_pos as HS. rewrite predictions_tab. unfold error_with, over_rows. rewrite targets_tab. cbn [ec_loss C].
  assert (G : exists v, lf_loss (make_loss xqops xq_loss_ops LMse) (map (fun r => XF (rv c r)) rows) (map (fun r => XF (y r)) rows) (ds_weights d) = Ok v /\ ffinite xqops v = true
    /\ xval v == Qsum (map (fun r => w r * ((rv c r - y r) * (rv c r - y r))) rows) / Qsum (map w rows)).
  { destruct (ds_weights d) as [l|] eqn:El.
    - rewrite (weights_tab l El).
      destruct (C34_weighted_mean xq xqops xval xq_loss_ops LMse sq_err (map (fun r => XF (rv c r)) rows) (map (fun r => XF (y r)) rows) (map (fun r => XF (w r)) rows)) as (v & E & Hf & _ & Hv);
        try apply tab_finite; try (rewrite !map_length; reflexivity); try reflexivity; [apply xq_exact|apply xq_exact_loss|].
      exists v. split; auto. split; auto. rewrite Hv.
      + rewrite !tab_values, weighted_row_sum_tab. unfold sq_err. reflexivity.
      + rewrite tab_values. intros Hz. unfold Sw, over_rows in HS. rewrite Hz in HS. discriminate.
    - destruct (C34_plain_mean xq xqops xval xq_loss_ops LMse sq_err (map (fun r => XF (rv c r)) rows) (map (fun r => XF (y r)) rows)) as (v & E & Hf & Hv);
        try apply tab_finite; try (rewrite !map_length; reflexivity); try reflexivity; [apply xq_exact|apply xq_exact_loss| |].
      + destruct (ds_n_rows d); [lia|]. discriminate.
      + exists v. split; auto. split; auto. rewrite Hv. rewrite !tab_values, row_sum_tab, map_length, seq_length.
        rewrite (qsum_ext w (fun _ => 1)) by (intros; unfold row_weight; rewrite El; reflexivity). rewrite ones_sum, seq_length.
        rewrite (qsum_ext (fun r => w r * ((rv c r - y r) * (rv c r - y r))) (fun x => sq_err (rv c x) (y x))); [reflexivity|].
        intros r _. unfold row_weight, sq_err. rewrite El. ring. }
  destruct G as ([v| |] & E & Hf & Hv); try discriminate. exists v. split; [exact E|exact Hv].
Qed.
(** The derivative of the error of a row with respect to its prediction. *)
Lemma dloss_at c out : List.length out = ds_n_rows d ->
  exists k, lf_dloss (ec_loss C) (predictions C d (at_ c) t) (ds_y d) (ds_weights d) out = Ok (map (fun r => XF (k r)) rows)
    /\ forall r, k r == w r / Sw * (2 * (rv c r - y r)).
Proof.
  intros Ho. pose proof Sw_pos as HS. assert (HS0 : ~ Sw == 0) by (intros Hz; rewrite Hz in HS; discriminate). rewrite predictions_tab. rewrite targets_tab. cbn [ec_loss C make_loss mean_of lf_dloss]. unfold mean_dloss.
  rewrite !map_length, seq_length, Ho, Nat.eqb_refl. cbn [assert_ bind].
  destruct (ds_weights d) as [l|] eqn:El.
  - pose proof (weights_tab l El) as Ew. rewrite Ew. rewrite map_length, seq_length, Nat.eqb_refl. cbn [assert_ bind].
    destruct (fsum_exact xqops xval xq_exact (map (fun r => XF (w r)) rows) (tab_finite w)) as [Hf Hv]. rewrite tab_values in Hv. fold (over_rows d w) in Hv. fold Sw in Hv.
    destruct (fsum xqops (map (fun r => XF (w r)) rows)) as [s| |] eqn:Es; try discriminate. cbn [xval] in Hv.
    assert (Hs0 : ~ s == 0) by (rewrite Hv; exact HS0).
    assert (feqb xqops (XF s) (fzero xqops) = false) as ->. { apply not_true_is_false. rewrite (ex_eq _ _ xq_exact) by reflexivity. exact Hs0. }
    rewrite zip_eq_ok by (rewrite !map_length; auto). cbn [bind]. rewrite combine_tab. rewrite zip_eq_ok by (rewrite !map_length; auto). cbn [bind]. rewrite combine_tab, map_map.
    unfold recip. cbn [fdiv fone xqops]. rewrite (xdiv_ok 1 s Hs0). cbn [fst snd].
    exists (fun r => w r * (1 / s) * (2 * (rv c r - y r))). split; [reflexivity|]. intros r. rewrite Hv. field. exact HS0.
  - assert (Hs : Sw == inject_Z (Z.of_nat (ds_n_rows d))).
    { unfold Sw, over_rows. rewrite (qsum_ext w (fun _ => 1)) by (intros; unfold row_weight; rewrite El; reflexivity). rewrite ones_sum, seq_length. reflexivity. }
    assert (Hs0 : ~ inject_Z (Z.of_nat (ds_n_rows d)) == 0) by (rewrite <- Hs; exact HS0).
    destruct (map (fun r => XF (y r)) rows) as [|y0 ys] eqn:Ey; [destruct (ds_n_rows d); [lia|discriminate]|]. rewrite <- Ey.
    rewrite zip_eq_ok by (rewrite !map_length; auto). cbn [bind]. rewrite combine_tab, map_map.
    unfold recip. cbn [fdiv fone xqops lo_of_nat xq_loss_ops]. rewrite (xdiv_ok 1 _ Hs0). cbn [fst snd].
    exists (fun r => (1 / inject_Z (Z.of_nat (ds_n_rows d))) * (2 * (rv c r - y r))). split; [reflexivity|]. intros r. rewrite Hs. unfold row_weight. rewrite El. field. exact Hs0.
Qed.

Let E r := A r - y r.
Let K0 := over_rows d (fun r => w r * (E r * E r)).
Let K1 := over_rows d (fun r => w r * (E r * B r)).
Let K2 := over_rows d (fun r => w r * (B r * B r)).
Lemma K2_nonneg : 0 <= K2.
Proof.
  apply qsum_nonneg. intros r Hr. apply Qmult_le_0_compat; [now apply w_nonneg|]. destruct (Qlt_le_dec (B r) 0) as [Hb|Hb]; [|now apply Qmult_le_0_compat].
  setoid_replace (B r * B r) with (- B r * - B r) by ring. apply Qmult_le_0_compat; Lqa.lra.
Qed.
Lemma K1_zero : K2 == 0 -> K1 == 0.
Proof.
  intros Hz. unfold K1, over_rows. rewrite (qsum_ext _ (fun _ => 0 * 1)); [rewrite (qsum_scale 0 (fun _ => 1)); ring|]. intros r Hr.
  assert (w r * (B r * B r) == 0).
  { apply (qsum_zero (fun r => w r * (B r * B r)) rows); auto. intros x Hx. apply Qmult_le_0_compat; [now apply w_nonneg|]. destruct (Qlt_le_dec (B x) 0) as [Hb|Hb]; [|now apply Qmult_le_0_compat].
    setoid_replace (B x * B x) with (- B x * - B x) by ring. apply Qmult_le_0_compat; Lqa.lra. }
  apply Qmult_integral in H as [H|H]; [rewrite H; ring|]. apply Qmult_integral in H as [H|H]; rewrite H; ring.
Qed.
Lemma mse_quadratic c : error_with e d t c == (K0 + 2 * K1 * c + K2 * (c * c)) / Sw.
Proof.
  unfold error_with. fold Sw. apply Qmult_comp; [|reflexivity]. unfold K0, K1, K2, over_rows.
  rewrite <- (Qmult_assoc 2), (Qmult_comm _ c), <- (qsum_scale c), <- (qsum_scale 2), (Qmult_comm _ (c * c)), <- (qsum_scale (c * c)), <- !qsum_plus.
  apply qsum_ext. intros r Hr. destruct (row_affine c r Hr) as (_ & _ & Hv & _). rewrite Hv. unfold E. ring.
Qed.
Lemma effect_K2 : effect e d t == K2 / Sw.
Proof. reflexivity. Qed.
(** The best constant and the least error. *)
Definition best_c : Q := - K1 / K2.
Definition least : Q := error_with e d t best_c.
Lemma mse_parabola c : error_with e d t c == least + effect e d t * ((c - best_c) * (c - best_c)).
Proof.
  pose proof Sw_pos as HS. assert (HS0 : ~ Sw == 0) by (intros Hz; rewrite Hz in HS; discriminate).
  unfold least. rewrite !mse_quadratic, effect_K2. destruct (Qeq_dec K2 0) as [Hz|Hz].
  - rewrite Hz, (K1_zero Hz). field. exact HS0.
  - unfold best_c. field. auto.
Qed.
Lemma effect_nonneg : 0 <= effect e d t.
Proof. rewrite effect_K2. pose proof K2_nonneg. apply Qmult_le_0_compat; auto. apply Qinv_le_0_compat. apply Qlt_le_weak, Sw_pos. Qed.

Context (OO : OptOps xq) (iters limit nre : nat) (gtol : xq) (ls : backtracking xq) (Hf : fits_u16 e X t) (p : plan)
  (Hp : compile_plan hash D (nodes e) (ds_n_features d) (List.length (consts e)) = Ok p) (Seen : list pnode -> Prop) (Hse : Seen (nodes e)) (Hh : told_apart hash Seen (nodes e)).
Let OC : opt_cfg xq xq := mkOptCfg xqops OO (fun x => Some x) (fun x => Some x) true iters limit nre gtol ls.

Lemma grad_value c dl k : (forall r, k r == w r / Sw * (2 * (rv c r - y r))) -> dl = map (fun r => XF (k r)) rows ->
  exists g, chain_rule C OC d t (at_ c) dl 0 = XF g /\ g == 2 * effect e d t * (c - best_c).
Proof.
  intros Hk ->. pose proof Sw_pos as HS. assert (HS0 : ~ Sw == 0) by (intros Hz; rewrite Hz in HS; discriminate).
  unfold chain_rule, to_w. cbn [oc_to OC ec_F ec_O C]. rewrite combine_tab.
  assert (G : forall l a, incl l rows -> exists s, fold_left (fun a q => fadd xqops a (fmul xqops (fst q) (snd q))) (map (fun r => (XF (k r), grad_comp xqops O (at_ c) X false t 0 r)) l) (XF a) = XF s
    /\ s == a + Qsum (map (fun r => k r * B r) l)).
  { induction l as [|r l IH]; intros a Hi; cbn [map fold_left Qsum].
    - exists a. split; [reflexivity|]. ring.
    - destruct (row_affine c r (Hi r (or_introl eq_refl))) as (_ & _ & _ & (g & Eg & Hg)). cbn [fst snd]. rewrite Eg. change (fadd xqops (XF a) (fmul xqops (XF (k r)) (XF g))) with (XF (a + k r * g)).
      destruct (IH (a + k r * g)) as (s & -> & Hs); [intros x Hx; apply Hi; now right|]. exists s. split; auto. rewrite Hs, Hg. ring. }
  destruct (G rows 0 (incl_refl _)) as (s & Es & Hs). cbn [fzero xqops]. rewrite Es. exists s. split; auto. rewrite Hs, effect_K2.
  assert (Hsum : Qsum (map (fun r => k r * B r) rows) == (2 / Sw) * (K1 + K2 * c)).
  { unfold K1, K2, over_rows. rewrite (Qmult_comm _ c), <- (qsum_scale c), <- qsum_plus, <- (qsum_scale (2 / Sw)). apply qsum_ext. intros r Hr.
    destruct (row_affine c r Hr) as (_ & _ & Hv & _). rewrite Hk, Hv. unfold E. field. exact HS0. }
  rewrite Hsum. destruct (Qeq_dec K2 0) as [Hz|Hz].
  - rewrite Hz, (K1_zero Hz). field. exact HS0.
  - unfold best_c. field. auto.
Qed.

Lemma gradient_available c gc dl : grad_reach xqops O hash D Seen gc -> d_rows gc = ds_n_rows d -> List.length dl = ds_n_rows d ->
  exists gc' dl' v g, loss_and_grad C OC (at_ c) d gc dl = Ok (gc', dl', Some (XF v, [XF g]))
    /\ grad_reach xqops O hash D Seen gc' /\ d_rows gc' = ds_n_rows d /\ List.length dl' = ds_n_rows d
    /\ v == error_with e d t c /\ g == 2 * effect e d t * (c - best_c).
Proof.
  intros Hgr Hrows Hdl. assert (Hl1 : List.length [XF c] = List.length (consts e)) by (rewrite H1; reflexivity).
  pose proof Hd as (D1 & D2 & D3 & D4 & D5).
  destruct (loss_and_grad_spec C OC d e t Hd Hn Hok Hf Seen Hse (make_loss_total xqops xq_loss_ops LMse C d Hd eq_refl) [XF c] gc dl Hh Hl1 Hgr Hrows Hdl)
    as (gc1 & dl1 & v1 & E1 & R1 & R2 & R3 & K).
  destruct (mse_at c) as (l & El & Hl).
  assert (Hv1 : exists a g, v1 = Some (a, g)).
  { destruct v1 as [[a g]|]; [eauto|]. exfalso. unfold loss_and_grad in E1.
    destruct (C09_gradient xq xqops O hash D (at_ c) X t ev_opts gc false Seen (ok_with C e [XF c] t X Hl1 Hok) D3 (fits_with e [XF c] t X Hl1 Hf)) as (gc' & vals & G & cpl & E2 & Hvl & Hgn & Hgc & HG & _ & Hcpl & Hvals); auto; try congruence.
    cbn [ec_F ec_O ec_hash ec_D C] in E1. rewrite E2 in E1. cbn [bind] in E1.
    assert (cpl = true) as -> by (apply Hcpl; auto; rewrite D2; apply (always_completes c)). cbn [negb] in E1.
    assert (Hpred : vals = predictions C d (at_ c) t).
    { apply nth_error_ext. intros i. destruct (Nat.lt_ge_cases i (ds_n_rows d)) as [Hi|Hi].
      - destruct (Hvals (or_introl eq_refl) i) as [-> _]; [rewrite D2; auto|]. unfold predictions. symmetry. apply (tab_nth (ds_n_rows d)). auto.
      - transitivity (@None xq); [|symmetry]; apply nth_error_None; [rewrite Hvl, D2; auto|unfold predictions; rewrite map_length, seq_length; auto]. }
    assert (existsb (fun v => negb (ffinite xqops v)) vals = false) as Ex.
    { rewrite Hpred, predictions_tab. apply not_true_is_false. intros H. apply existsb_exists in H as (x & Hx & Hb). apply in_map_iff in Hx as (r & <- & _). discriminate. }
    rewrite Ex, Hpred in E1. cbn [ec_loss C] in E1, El. rewrite El in E1. cbn [bind] in E1. change (ffinite xqops (XF l)) with true in E1. cbn [negb] in E1.
    destruct (dloss_at c dl Hdl) as (k & Ek & _). cbn [ec_loss C] in Ek. rewrite Ek in E1. cbn [bind] in E1.
    destruct (mapM _ _); cbn [bind] in E1; try discriminate. }
  destruct Hv1 as (a & g & ->). destruct (K a g eq_refl) as (l' & (_ & El' & _) & -> & Edl & ->).
  assert (l' = XF l) as -> by congruence. destruct (dloss_at c dl Hdl) as (k & Ek & Hk). rewrite Ek in Edl. injection Edl as <-.
  destruct (grad_value c _ k Hk eq_refl) as (g & Eg & Hg). cbn [List.length seq map] in E1.  rewrite Eg in E1. cbn [to_w oc_to OC] in E1.
  exists gc1, (map (fun r => XF (k r)) rows), l, g. auto 10.
Qed.

Lemma objective_parabola : is_parabola xqops xval (const_objective C OC p e d) (cs_inv C d e Seen) least (effect e d t) best_c.
Proof.
  intros st x Hst Hx. destruct x as [c| |]; try discriminate. pose proof Hst as (I1 & I2 & I3 & I4 & I5). cbn [const_objective ob_f ob_fg].
  rewrite H1 in I1. destruct (cs_consts st) as [|v0 [|]] eqn:Ec; try discriminate. cbn [List.length] in *.
  assert (Hl1 : List.length [XF c] = List.length (consts e)) by (rewrite H1; reflexivity). split.
  - unfold zip_eq. cbn [List.length Nat.eqb bind write_consts OC oc_of]. cbn [negb].
    destruct (loss_only_spec C OC d e p t Hd Hn Hok Hf Hp (make_loss_total xqops xq_loss_ops LMse C d Hd eq_refl) [XF c] (cs_ev st) Hl1 I2) as (ev' & Hev' & Eo).
    fold OC. rewrite Eo. rewrite (proj2 (all_fin_completes C d (at_ c) t Hd Hn) (always_completes c)).
    destruct (mse_at c) as (l & El & Hl). rewrite El. cbn [bind ec_F C ffinite xqops xfin].
    eexists _, (XF l). split; [reflexivity|]. split; [unfold cs_inv; cbn; rewrite H1; auto|]. split; [reflexivity|]. cbn [xval]. rewrite Hl. apply mse_parabola.
  - unfold zip_eq. cbn [List.length Nat.eqb bind write_consts OC oc_of]. cbn [negb].
    destruct (gradient_available c (cs_grad st) (cs_dloss st) I3 I4 I5) as (gc' & dl' & v & g & Eg & G1 & G2 & G3 & G4 & G5).
    fold OC. rewrite Eg. cbn [bind]. eexists _, (XF v), (XF g). split; [reflexivity|]. split; [unfold cs_inv; cbn; rewrite H1; auto|]. split; [reflexivity|]. split; [reflexivity|].
    cbn [xval]. split; [rewrite G4; apply mse_parabola|exact G5].
Qed.
End Fit.

(** ** The theorem *)
(** The numbers the optimiser works with are exact, and its settings as sensible as the defaults (two iterations or more,
    no limit on the calls or one of five at least, no limit on the step length, c1 at most one half). *)
Record exact_search (OO : OptOps xq) (iters limit : nat) (gtol : xq) (ls : backtracking xq) : Prop := {
  es_funs : exact_funs xqops xval OO;
  es_half : ffinite xqops (oo_half OO) = true;
  es_step : ffinite xqops (bt_maxstep ls) = false;
  es_c1f : ffinite xqops (bt_c1 ls) = true;
  es_c1 : 0 < xval (bt_c1 ls) <= 1 # 2;
  es_ls : (0 < bt_iterations ls)%nat;
  es_gf : ffinite xqops gtol = true;
  es_g : 0 <= xval gtol;
  es_iters : (2 <= iters)%nat;
  es_limit : (limit = 0 \/ 5 <= limit)%nat }.
(** No constant does better, or none by more than gtol^2 / (4 effect). *)
Definition fitted (e : expr xq) (d : dataset xq) (t : tree) (gtol : Q) (c : Q) : Prop :=
  (forall c', error_with e d t c <= error_with e d t c')
  \/ 0 < effect e d t /\ forall c', error_with e d t c <= error_with e d t c' + gtol * gtol / (4 * effect e d t).

Section Final.
Context (hash : list pnode -> N) (umax D : nat) (size : size_opts) (pars : xq) (ub : bool).
Let C : eval_cfg xq := mkEvalCfg xqops xq_loss_ops O hash umax D size (make_loss xqops xq_loss_ops LMse) pars ub.
Context (OO : OptOps xq) (iters limit nre : nat) (gtol : xq) (ls : backtracking xq) (ES : exact_search OO iters limit gtol ls).
Let OC : opt_cfg xq xq := mkOptCfg xqops OO (fun x => Some x) (fun x => Some x) true iters limit nre gtol ls.
Context (d : dataset xq) (e : expr xq) (t : tree) (p : plan) (c0 : Q) (Hd : dataset_ok d) (Hn : (1 <= ds_n_rows d)%nat) (Hok : ok_tree O D e (ds_x d) t)
  (He : consts e = [XF c0]) (Hlin : linear t = true) (Hc0 : completes C d e t) (Hnum : numbers d) (Hf : fits_u16 e (ds_x d) t)
  (Hp : compile_plan hash D (nodes e) (ds_n_features d) (List.length (consts e)) = Ok p) (Seen : list pnode -> Prop) (Hse : Seen (nodes e)) (Hh : told_apart hash Seen (nodes e))
  (Heff : effect e d t == 0 \/ xval (oo_tiny OO) <= 2 * effect e d t).
Local Notation err := (error_with e d t).
Local Notation fit := (fitted e d t (xval gtol)).

Lemma one_const : List.length (consts e) = 1%nat.
Proof. rewrite He. reflexivity. Qed.
Lemma at_c0 : with_consts e [XF c0] = e.
Proof. destruct e as [a b c]. cbn in *. subst. reflexivity. Qed.
Lemma c0_completes : completes C d (with_consts e [XF c0]) t.
Proof. rewrite at_c0. exact Hc0. Qed.
Lemma eff_cases : effect e d t == 0 \/ 0 < effect e d t /\ xval (oo_tiny OO) <= 2 * effect e d t.
Proof.
  destruct Heff as [?|H]; auto. pose proof (effect_nonneg 0%nat (XF 0) d e t Hd Hn one_const Hlin Hnum) as Hp0.
  apply Qle_lteq in Hp0 as [Hp0|Hp0]; [auto|]. left. now symmetry.
Qed.

(** From any start the result is fitted. *)
Lemma start_fits st x0 : cs_inv C d e Seen st -> exists st' o x f, optimize_from_start C OC p e d st [XF x0] = Ok (st', Some o) /\ cs_inv C d e Seen st'
  /\ or_minimizer o = [XF x] /\ or_minimum o = XF f /\ f == err x /\ fit x /\ (fit x0 \/ forall c, err x <= err c).
Proof.
  intros Hst. unfold optimize_from_start. rewrite one_const. cbn [Nat.eqb]. change (index [XF x0] 0) with (Ok (XF x0)). cbn [bind oc_F oc_OO oc_ls oc_iterations oc_f_calls_limit oc_g_abstol OC].
  pose proof (objective_parabola hash umax D size pars ub d e t Hd Hn Hok one_const Hlin c0 c0_completes Hnum OO iters limit nre gtol ls Hf p Hp Seen Hse Hh) as HP.
  pose proof eff_cases as HE. destruct ES.
  destruct (C62_newton_parabola (cstate xq) xq xqops xval OO _ _ _ _ _ (mkOptim iters limit gtol) ls st (XF x0) xq_exact es_funs0 HP HE es_step0 es_c1f0 es_c2 es_ls0 es_gf0 es_g0 es_iters0 es_limit0 Hst eq_refl)
    as (st' & calls & o & x & E & Hx & Hxf & Hst' & _ & Hof & Hov & Hcase).
  destruct x as [x| |]; try discriminate. destruct (or_minimum o) as [f| |] eqn:Eo; try discriminate. cbn [xval oi_g_abstol] in *.
  fold C in E. fold OC in E. fold C. fold OC. rewrite E. cbn [bind]. exists st', o, x, f. split; [reflexivity|]. split; auto. split; auto. split; auto.
  pose proof (mse_parabola hash umax D size pars ub d e t Hd Hn Hok one_const Hlin c0 c0_completes Hnum) as Hm.
  set (m := best_c d e t) in *. set (q := effect e d t) in *. set (l := least d e t) in *.
  assert (Hq : 0 <= q) by (destruct HE as [->|[? _]]; Lqa.lra).
  assert (Hsq : forall z, 0 <= q * (z * z)).
  { intros z. apply Qmult_le_0_compat; auto. destruct (Qlt_le_dec z 0); [setoid_replace (z * z) with (- z * - z) by ring|]; apply Qmult_le_0_compat; Lqa.lra. }
  split; [rewrite Hm; exact Hov|].
  assert (Hmin : forall z, z == m -> forall c, err z <= err c).
  { intros z Hz c. rewrite !Hm, Hz. pose proof (Hsq (c - m)). setoid_replace (q * ((m - m) * (m - m))) with 0 by ring. Lqa.lra. }
  destruct Hcase as [Hxm|[[= ->] Hs]].
  - split; [left|right]; apply Hmin; auto.
  - assert (fit x0); [|split; [|left]; auto]. destruct HE as [Hz|[Hz _]].
    + left. intros c. rewrite !Hm. fold q in Hz. rewrite Hz. Lqa.lra.
    + right. fold q in Hz |- *. split; auto. intros c. rewrite !Hm. pose proof (Hsq (c - m)).
      assert (q * ((x0 - m) * (x0 - m)) <= xval gtol * xval gtol / (4 * q)); [|Lqa.lra].
      apply Qle_shift_div_l; [Lqa.lra|]. set (z := x0 - m) in *. setoid_replace (q * (z * z) * (4 * q)) with ((2 * q * z) * (2 * q * z)) by ring.
      setoid_replace ((2 * q * z) * (2 * q * z)) with (Qabs (2 * q * z) * Qabs (2 * q * z)).
      { pose proof (Qabs_nonneg (2 * q * z)). apply Qle_trans with (Qabs (2 * q * z) * xval gtol); [|apply Qmult_le_compat_r; auto].
        rewrite (Qmult_comm (Qabs (2 * q * z)) (xval gtol)). apply Qmult_le_compat_r; auto. }
      { destruct (Qlt_le_dec (2 * q * z) 0); [rewrite Qabs_neg by Lqa.lra|rewrite Qabs_pos by Lqa.lra]; ring. }
Qed.

(** The best so far is fitted, and better than the start unless that is fitted as well. *)
Definition good (base : Q) (best : list xq * xq * nat) : Prop :=
  let '(bx, bf, _) := best in exists x f, bx = [XF x] /\ bf = XF f /\ f == err x /\ fit x /\ (f < base \/ fit c0).
Lemma fltb_xq a b : fltb xqops (XF a) (XF b) = true <-> a < b.
Proof. apply (ex_lt _ _ xq_exact); reflexivity. Qed.
Lemma restarts_fit base : forall k r st best, (forall i, ffinite xqops (rg_real r i) = true) -> cs_inv C d e Seen st -> good base best ->
  exists r' st' best', restarts C OC k p e d [XF c0] r st best = Ok (r', st', best') /\ cs_inv C d e Seen st' /\ good base best'.
Proof.
  induction k as [|k IH]; intros r st best Hr Hst Hb; cbn [restarts]; [eauto 10|]. cbn [perturb rng_real oc_F OC oc_OO].
  pose proof (Hr 0%nat) as H0. destruct (rg_real r 0) as [eps| |]; try discriminate.
  pose proof (es_half _ _ _ _ _ ES) as Hh'. destruct (oo_half OO) as [h| |]; try discriminate.
  change (fmul xqops (XF c0) (fadd xqops (fone xqops) (fmul xqops (XF h) (XF eps)))) with (XF (c0 * (1 + h * eps))).
  destruct (start_fits st (c0 * (1 + h * eps)) Hst) as (st' & o & x & f & E & Hst' & Hx & Hfo & Hfe & Hfit & _).
  fold OC in E. rewrite E. cbn [bind]. apply IH; auto; [intros i; apply (Hr (S i))|].
  destruct best as [[bx bf] n]. destruct Hb as (x1 & f1 & -> & -> & Hf1 & Hfit1 & Hb). unfold take_better. cbn [oc_F OC]. rewrite Hfo, Hx.
  destruct (fltb xqops (XF f) (XF f1)) eqn:El.
  - apply fltb_xq in El. exists x, f. repeat split; auto. destruct Hb as [Hb|Hb]; auto. left. Lqa.lra.
  - exists x1, f1. auto.
Qed.
End Final.

(** A member whose expression is linear in its only constant leaves the optimisation of its constants fitted by least squares. *)
Theorem C63_least_squares : forall hash umax D size pars ub OO iters limit nre gtol ls Seen (r : rng xq) m d bl ev gc nb t c0,
  let C := mkEvalCfg xqops xq_loss_ops (rational_ops xqops) hash umax D size (make_loss xqops xq_loss_ops LMse) pars ub in
  let OC := mkOptCfg xqops OO (fun x => Some x) (fun x => Some x) true iters limit nre gtol ls in
  opt_ready C Seen d m ev gc t -> numbers d -> completes C d (m_expr m) t -> exact_search OO iters limit gtol ls ->
  (forall i, ffinite xqops (rg_real r i) = true) ->
  consts (m_expr m) = [XF c0] -> linear t = true ->
  effect (m_expr m) d t == 0 \/ xval (oo_tiny OO) <= 2 * effect (m_expr m) d t ->
  exists r' m' ev' gc' nb' improved evals c1, optimize_constants C OC r m d bl ev gc nb = Ok (r', m', ev', gc', nb', improved, evals)
    /\ consts (m_expr m') = [XF c1] /\ fitted (m_expr m) d t (xval gtol) c1.
Proof.
  intros hash umax D size pars ub OO iters limit nre gtol ls Seen r m d bl ev gc nb t c0 C OC R Hnum Hcpl ES Hr He Hlin Heff.
  pose proof R as [[Hd Hn Hok Hf Hp Hev Hgc Hgr Hse Hw Hsz Hl] Hh].
  unfold optimize_constants. change (oc_enabled OC) with true. cbn [negb]. rewrite He. cbn [List.length Nat.eqb].
  set (e := m_expr m) in *.
  assert (Hwe : with_consts e (consts e) = e) by (destruct e; reflexivity).
  assert (H1 : List.length (consts e) = 1%nat) by (rewrite He; reflexivity).
  destruct (loss_only_spec C OC d e (m_plan m) t Hd Hn Hok Hf Hp Hl (consts e) ev eq_refl Hev) as (ev1 & Hev1 & E1). rewrite Hwe in E1. rewrite E1. cbn [bind].
  rewrite (proj2 (all_fin_completes C d e t Hd Hn) Hcpl).
  assert (Hc0 : completes C d (with_consts e [XF c0]) t) by (rewrite <- He, Hwe; exact Hcpl).
  destruct (mse_at hash umax D size pars ub d e t Hd Hn Hok H1 Hlin c0 Hc0 Hnum c0) as (l0 & El0 & Hl0). rewrite <- He, Hwe in El0. fold C in El0. rewrite El0.
  cbn [ec_F C ffinite xqops xfin map to_w OC oc_to].
  destruct (start_fits hash umax D size pars ub OO iters limit nre gtol ls ES d e t (m_plan m) c0 Hd Hn Hok He Hlin Hcpl Hnum Hf Hp Seen Hse Hh Heff (mkCState (consts e) ev1 gc (fill (ds_n_rows d) (XF 0))) c0)
    as (st1 & o & x & f & Es & Hst1 & Hx & Hfo & Hfe & Hfit & Hor).
  { unfold cs_inv. cbn. rewrite fill_length. auto. }
  fold C in Es, Hst1. fold OC in Es. rewrite He in Es. change (fzero xqops) with (XF 0). rewrite Es. cbn [bind].
  assert (Hgood : good gtol d e t c0 l0 (take_better OC ([XF c0], XF l0, 0%nat) (Some o))).
  { unfold take_better. cbn [oc_F OC]. rewrite Hfo, Hx. destruct (fltb xqops (XF f) (XF l0)) eqn:El.
    - apply fltb_xq in El. exists x, f. auto 10.
    - assert (Hle : l0 <= f). { apply Qnot_lt_le. intros Hlt. apply fltb_xq in Hlt. congruence. }
      assert (fitted e d t (xval gtol) c0). { destruct Hor as [|Hmin]; auto. left. intros c. apply Qle_trans with (2 := Hmin c). rewrite <- Hfe, <- Hl0. exact Hle. }
      exists c0, l0. auto 10. }
  destruct (restarts_fit hash umax D size pars ub OO iters limit nre gtol ls ES d e t (m_plan m) c0 Hd Hn Hok He Hlin Hcpl Hnum Hf Hp Seen Hse Hh Heff l0 nre r st1 _ Hr Hst1 Hgood) as (r' & st2 & [[bx bf] n] & Er & Hst2 & Hb).
  fold C in Er, Hst2. fold OC in Er. cbn [oc_nrestarts OC]. fold OC. rewrite Er. cbn [bind]. destruct Hb as (x2 & f2 & -> & -> & Hf2 & Hfit2 & Hbb).
  cbn [oc_F OC]. destruct (fltb xqops (XF f2) (XF l0)) eqn:El.
  - destruct Hst2 as (S1 & S2 & S3 & S4 & S5). rewrite zip_eq_ok by (rewrite S1, H1; reflexivity). cbn [bind map oc_of OC].
    assert (Hl1 : List.length [XF x2] = List.length (consts e)) by (rewrite H1; reflexivity).
    destruct (evaluate_spec C (set_consts m [XF x2]) d bl (cs_ev st2) t (m_nrows (ds_x d)) (oknown (rational_ops xqops)) Hd (ok_with C e [XF x2] t (ds_x d) Hl1 Hok) (fits_with e [XF x2] t (ds_x d) Hl1 Hf) Hn) as (ev' & Hev' & Hcase); auto.
    { unfold plan_fresh in Hp |- *. cbn [set_consts m_plan m_expr with_consts nodes consts]. fold e in Hp |- *. rewrite H1 in Hp. exact Hp. }
    { exists t. exact (ok_with C e [XF x2] t (ds_x d) Hl1 Hok). }
    cbn [set_consts m_expr] in Hcase. fold e in Hcase.
    pose proof (always_completes hash umax D size pars ub d e t Hd Hn Hok H1 Hlin c0 Hc0 Hnum x2) as Hcx. fold C in Hcx.
    destruct Hcase as [[Hno _]|[_ Ee]]; [contradiction|].
    destruct (mse_at hash umax D size pars ub d e t Hd Hn Hok H1 Hlin c0 Hc0 Hnum x2) as (l2 & El2 & Hl2). fold C in El2. rewrite El2 in Ee. change (ffinite (ec_F C) (XF l2)) with true in Ee. cbn iota in Ee.
    rewrite Ee. cbn [bind negb]. do 7 eexists. exists x2. split; [reflexivity|]. split; [reflexivity|exact Hfit2].
  - do 7 eexists. exists c0. split; [reflexivity|]. split; [exact He|]. destruct Hbb as [Hlt|]; auto. apply fltb_xq in Hlt. congruence.
Qed.

(** The premises hold for the member of [C32_case], x0 + c on the three rows of [demo_data], whose best constant is 11/4. *)
Example C63_case : exists p,
  let m := mkMember 7 None 0 (shift_expr (XF 0)) p 3 (XF (37 # 4)) (XF 1) in
  opt_ready opt_cfg_e (fun _ => True) demo_data m (evaluator_new xqops 3) (dctx_new xqops 3) shift_tree /\ numbers demo_data
  /\ completes opt_cfg_e demo_data (m_expr m) shift_tree /\ exact_search xq_opt_ops 2 0 (XF (1 # 100000000)) default_bt
  /\ linear shift_tree = true /\ effect (m_expr m) demo_data shift_tree == 1
  /\ error_with (m_expr m) demo_data shift_tree 0 == 37 # 4 /\ error_with (m_expr m) demo_data shift_tree (11 # 4) == 27 # 16.
Proof.
  destruct C32_case as (p & H1 & _ & _ & (l & (H2 & _) & _) & _). exists p. cbn zeta. split; [exact H1|]. split; [|split; [exact H2|split; [|split; [reflexivity|split; [vm_compute; reflexivity|split; vm_compute; reflexivity]]]]].
  - split; [|split].
    + apply Forall_forall. intros x Hx. cbn in Hx. repeat (destruct Hx as [<-|Hx]; [reflexivity|]). destruct Hx.
    + apply Forall_forall. intros x Hx. cbn in Hx. repeat (destruct Hx as [<-|Hx]; [reflexivity|]). destruct Hx.
    + intros w [= <-]. split; [repeat constructor|]. split; [repeat constructor; cbn; Lqa.lra|]. vm_compute. reflexivity.
  - split; try reflexivity; try (cbn; lia); try (cbn; Lqa.lra). apply xq_exact_funs.
Qed.
(** Both uses of the constant count: (x0 * c - c) / x1 is linear, c * c and 1 / c are not. *)
Example C63_linear_case : linear (TOp 2 [TOp 7 [TOp 5 [TVar 0; TConst 0]; TConst 0]; TVar 1]) = true
  /\ linear (TOp 5 [TConst 0; TConst 0]) = false /\ linear (TOp 17 [TConst 0]) = false.
Proof. repeat split. Qed.
Print Assumptions C63_least_squares.
