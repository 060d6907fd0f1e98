(** Properties C31 (size warm-up) and C43 (conditioning of mutation weights). *)
From Coq Require Import QArith Qround Qminmax Lqa.
From Verif Require Import Base BaseLemmas Node Tree NodeProofs SpanProofs Rng Registry Complexity Member Num Instances Selection PropSelection Conditioning.
Local Open Scope nat_scope.

(** ** C31 *)
Section C31.
Context {W : Type} (FW : FloatOps W) (val : W -> Q) (X : ExactLaws FW val) (of_nat : nat -> W) (floor_nat : W -> nat).
Hypothesis of_nat_exact : forall n, ffinite FW (of_nat n) = true /\ (val (of_nat n) == inject_Z (Z.of_nat n))%Q.
Hypothesis floor_exact : forall x, ffinite FW x = true -> (0 <= val x)%Q -> floor_nat x = Z.to_nat (Qfloor (val x)).

Definition Qn (n : nat) : Q := inject_Z (Z.of_nat n).

(** The limit grows linearly from 3 to [maxsize] while the elapsed fraction is at most [by], in whole steps. *)
Definition warmup_spec (by_ : Q) (maxsize total elapsed : nat) : nat :=
  if (Qle_bool by_ 0 || negb (Qle_bool (Qn elapsed / Qn total) by_))%bool then maxsize
  else 3 + Z.to_nat (Qfloor (Qn (maxsize - 3) * (Qn elapsed / Qn total) / by_)).

Theorem C31_warmup_formula by_ maxsize total remaining : ffinite FW by_ = true -> 3 <= maxsize -> 1 <= total ->
  get_cur_maxsize FW of_nat floor_nat by_ maxsize total remaining = Ok (warmup_spec (val by_) maxsize total (total - remaining)).
Proof.
  intros Hb Hm Ht. destruct (ex_zero _ _ X) as [Hz Ez]. unfold get_cur_maxsize, warmup_spec.
  destruct (of_nat_exact (total - remaining)) as [E1 V1]. destruct (of_nat_exact total) as [E2 V2]. destruct (of_nat_exact (maxsize - 3)) as [E3 V3].
  assert (PT : (1 <= Qn total)%Q) by (unfold Qn; change 1%Q with (inject_Z 1); rewrite <- Zle_Qle; lia).
  assert (PE : (0 <= Qn (total - remaining))%Q) by (unfold Qn; change 0%Q with (inject_Z 0); rewrite <- Zle_Qle; lia).
  destruct (ex_div _ _ X _ _ E1 E2) as [Ef Vf]. { rewrite V2. fold (Qn total). lra. }
  set (fr := fdiv FW (of_nat (total - remaining)) (of_nat total)) in *.
  assert (Vf' : (val fr == Qn (total - remaining) / Qn total)%Q) by (rewrite Vf, V1, V2; reflexivity).
  assert (PF : (0 <= Qn (total - remaining) / Qn total)%Q) by (apply Qle_shift_div_l; lra).
  set (q := (Qn (total - remaining) / Qn total)%Q) in *.
  assert (Hlt : fltb FW (fzero FW) by_ = negb (Qle_bool (val by_) 0)).
  { apply bool_ext. rewrite (ex_lt _ _ X), Ez, negb_true_iff by auto. rewrite <- not_true_iff_false, Qle_bool_iff. split; [intros; lra|]. intros; lra. }
  assert (Hle : fleb FW fr by_ = Qle_bool q (val by_)).
  { apply bool_ext. unfold fleb. rewrite orb_true_iff, (ex_lt _ _ X), (ex_eq _ _ X), Vf', Qle_bool_iff by auto. split; [intros []; lra|].
    intros H. destruct (Qlt_le_dec q (val by_)); auto. right. lra. }
  rewrite Hlt, Hle. destruct (Qle_bool (val by_) 0) eqn:E0; cbn [negb andb orb]; auto.
  destruct (Qle_bool q (val by_)) eqn:E4; cbn [negb orb]; auto.
  assert (Pb : (0 < val by_)%Q). { apply Qnot_le_lt. intros Hc. apply Qle_bool_iff in Hc. congruence. }
  destruct (Nat.leb_spec 3 maxsize); [|lia]. cbn [assert_ bind]. do 2 f_equal.
  destruct (ex_mul _ _ X _ fr E3 Ef) as [Emf Vm]. destruct (ex_div _ _ X _ by_ Emf Hb) as [Ed Vd]; [lra|].
  assert (V : (val (fdiv FW (fmul FW (of_nat (maxsize - 3)) fr) by_) == Qn (maxsize - 3) * q / val by_)%Q) by (rewrite Vd, Vm, V3, Vf'; reflexivity).
  assert (PM : (0 <= Qn (maxsize - 3))%Q) by (unfold Qn; change 0%Q with (inject_Z 0); rewrite <- Zle_Qle; lia).
  rewrite floor_exact; auto.
  - rewrite V. reflexivity.
  - rewrite V. apply Qle_shift_div_l; [auto|]. nra.
Qed.

Lemma Qfloor_Qn n : Qfloor (Qn n) = Z.of_nat n.
Proof. unfold Qn. apply Qfloor_Z. Qed.

(** Between 3 and the configured maximum; never decreasing as cycles complete; 3 at the start of a warm-up; the configured maximum when the warm-up
    is disabled, from the cycle at which its share is reached on, and at the end. *)
Theorem C31_warmup by_ maxsize total : ffinite FW by_ = true -> 3 <= maxsize -> 1 <= total ->
  (forall remaining, exists m, get_cur_maxsize FW of_nat floor_nat by_ maxsize total remaining = Ok m /\ 3 <= m <= maxsize) /\
  (forall rem1 rem2 m1 m2, rem2 <= rem1 -> get_cur_maxsize FW of_nat floor_nat by_ maxsize total rem1 = Ok m1 ->
     get_cur_maxsize FW of_nat floor_nat by_ maxsize total rem2 = Ok m2 -> m1 <= m2) /\
  ((0 < val by_)%Q -> get_cur_maxsize FW of_nat floor_nat by_ maxsize total total = Ok 3) /\
  (forall remaining, (val by_ <= 0)%Q \/ (val by_ * Qn total <= Qn (total - remaining))%Q ->
     get_cur_maxsize FW of_nat floor_nat by_ maxsize total remaining = Ok maxsize).
Proof.
  intros Hb Hm Ht.
  assert (PT : (1 <= Qn total)%Q) by (unfold Qn; change 1%Q with (inject_Z 1); rewrite <- Zle_Qle; lia).
  assert (PM : (0 <= Qn (maxsize - 3))%Q) by (unfold Qn; change 0%Q with (inject_Z 0); rewrite <- Zle_Qle; lia).
  assert (PQ : forall e, (0 <= Qn e / Qn total)%Q).
  { intros e. apply Qle_shift_div_l; [lra|]. rewrite Qmult_0_l. unfold Qn. change 0%Q with (inject_Z 0). rewrite <- Zle_Qle. lia. }
  assert (Hrange : forall e, 3 <= warmup_spec (val by_) maxsize total e <= maxsize).
  { intros e. unfold warmup_spec. destruct (Qle_bool (val by_) 0) eqn:E0; cbn [orb]; [lia|]. destruct (Qle_bool (Qn e / Qn total) (val by_)) eqn:E1; cbn [negb]; [|lia].
    apply Qle_bool_iff in E1. assert (Pb : (0 < val by_)%Q) by (apply Qnot_le_lt; intros Hc; apply Qle_bool_iff in Hc; congruence).
    assert (Hle : (Qn (maxsize - 3) * (Qn e / Qn total) / val by_ <= Qn (maxsize - 3))%Q) by (apply Qle_shift_div_r; [auto|]; apply Qmult_le_l_compat || (specialize (PQ e); nra)).
    apply Qfloor_resp_le in Hle. rewrite Qfloor_Qn in Hle. lia. }
  assert (Hmono : forall e1 e2, e1 <= e2 -> warmup_spec (val by_) maxsize total e1 <= warmup_spec (val by_) maxsize total e2).
  { intros e1 e2 He. destruct (Hrange e1) as [_ Hr1]. unfold warmup_spec in *. destruct (Qle_bool (val by_) 0) eqn:E0; cbn [orb] in *; [lia|].
    assert (Pb : (0 < val by_)%Q) by (apply Qnot_le_lt; intros Hc; apply Qle_bool_iff in Hc; congruence).
    assert (Hq : (Qn e1 / Qn total <= Qn e2 / Qn total)%Q).
    { apply Qmult_le_compat_r; [unfold Qn; rewrite <- Zle_Qle; lia|]. apply Qlt_le_weak, Qinv_lt_0_compat. lra. }
    destruct (Qle_bool (Qn e2 / Qn total) (val by_)) eqn:E2; cbn [negb].
    - apply Qle_bool_iff in E2. assert (E1 : Qle_bool (Qn e1 / Qn total) (val by_) = true) by (apply Qle_bool_iff; lra). rewrite E1. cbn [negb].
      apply Nat.add_le_mono_l. apply Z2Nat.inj_le.
      + change 0%Z with (Qfloor 0). apply Qfloor_resp_le. apply Qle_shift_div_l; auto. specialize (PQ e1). nra.
      + change 0%Z with (Qfloor 0). apply Qfloor_resp_le. apply Qle_shift_div_l; auto. specialize (PQ e2). nra.
      + apply Qfloor_resp_le. apply Qmult_le_compat_r; [nra|]. apply Qlt_le_weak, Qinv_lt_0_compat. lra.
    - exact Hr1. }
  split; [|split; [|split]].
  - intros remaining. eexists. split; [apply C31_warmup_formula; auto|]. apply Hrange.
  - intros rem1 rem2 m1 m2 Hle E1 E2. rewrite C31_warmup_formula in E1, E2 by auto. injection E1 as <-. injection E2 as <-. apply Hmono. lia.
  - intros Pb. rewrite C31_warmup_formula by auto. f_equal. unfold warmup_spec. rewrite Nat.sub_diag.
    assert (Hz0 : (Qn 0 / Qn total == 0)%Q) by (change (Qn 0) with 0%Q; field; lra).
    assert (E1 : Qle_bool (Qn 0 / Qn total) (val by_) = true) by (apply Qle_bool_iff; rewrite Hz0; lra).
    assert (E0 : Qle_bool (val by_) 0 = false) by (apply not_true_is_false; intros Hc; apply Qle_bool_iff in Hc; lra).
    rewrite E0, E1. cbn [negb orb]. assert (Hv : (Qn (maxsize - 3) * (Qn 0 / Qn total) / val by_ == 0)%Q) by (rewrite Hz0; field; lra).
    rewrite Hv. reflexivity.
  - intros remaining Hor. rewrite C31_warmup_formula by auto. f_equal. unfold warmup_spec.
    destruct (Qle_bool (val by_) 0) eqn:E0; cbn [orb]; auto.
    assert (Pb : (0 < val by_)%Q) by (apply Qnot_le_lt; intros Hc; apply Qle_bool_iff in Hc; congruence).
    destruct Hor as [Hor|Hor]; [lra|].
    destruct (Qle_bool (Qn (total - remaining) / Qn total) (val by_)) eqn:E1; cbn [negb]; auto. apply Qle_bool_iff in E1.
    assert (Hge : (val by_ <= Qn (total - remaining) / Qn total)%Q) by (apply Qle_shift_div_l; lra).
    assert (Heq : (Qn (total - remaining) / Qn total == val by_)%Q) by lra.
    assert (Hv : (Qn (maxsize - 3) * (Qn (total - remaining) / Qn total) / val by_ == Qn (maxsize - 3))%Q) by (rewrite Heq; field; lra).
    rewrite Hv, Qfloor_Qn. lia.
Qed.
End C31.

(** A maximum below 3 with warm-up enabled panics; with no cycles at all the fraction is 0/0 and the limit is the maximum. *)
Theorem C31_small_maxsize_refuted {W} (FW : FloatOps W) (val : W -> Q) (X : ExactLaws FW val) of_nat floor_nat by_ maxsize total :
  (forall n, ffinite FW (of_nat n) = true /\ (val (of_nat n) == inject_Z (Z.of_nat n))%Q) ->
  ffinite FW by_ = true -> (0 < val by_)%Q -> 1 <= total -> maxsize < 3 -> get_cur_maxsize FW of_nat floor_nat by_ maxsize total total = Panic.
Proof.
  intros Hof Hb Pb Ht Hm. destruct (ex_zero _ _ X) as [Hz Ez]. unfold get_cur_maxsize. rewrite Nat.sub_diag.
  destruct (Hof 0) as [E1 V1]. destruct (Hof total) as [E2 V2].
  assert (PT : (1 <= inject_Z (Z.of_nat total))%Q) by (change 1%Q with (inject_Z 1); rewrite <- Zle_Qle; lia).
  destruct (ex_div _ _ X _ _ E1 E2) as [Ef Vf]. { rewrite V2. lra. }
  assert (Hlt : fltb FW (fzero FW) by_ = true) by (apply (ex_lt _ _ X); auto; rewrite Ez; auto).
  assert (Hle : fleb FW (fdiv FW (of_nat 0) (of_nat total)) by_ = true).
  { unfold fleb. apply orb_true_iff. left. apply (ex_lt _ _ X); auto. rewrite Vf, V1, V2. change (inject_Z (Z.of_nat 0)) with 0%Q.
    assert (H0 : (0 / inject_Z (Z.of_nat total) == 0)%Q) by (field; lra). rewrite H0. auto. }
  rewrite Hlt, Hle. cbn [andb]. destruct (Nat.leb_spec 3 maxsize); [lia|]. reflexivity.
Qed.

Definition xq_floor_nat (x : xq) : nat := Z.to_nat (Qfloor (xval x)).
Example C31_case :
  map (fun rem => get_cur_maxsize xqops (fun n => XF (inject_Z (Z.of_nat n))) xq_floor_nat (XF (1 # 2)) 13 20 rem) [20; 19; 17; 15; 12; 10; 9; 0]
  = [Ok 3; Ok 4; Ok 6; Ok 8; Ok 11; Ok 13; Ok 13; Ok 13].
Proof. vm_compute. reflexivity. Qed.

(** ** C43 *)
(** The constants at the leaves of a tree, and what a tree contains. *)
Fixpoint const_leaves (t : tree) : nat :=
  match t with TVar _ => 0 | TConst _ => 1 | TOp _ cs => sum_list (map const_leaves cs) end.
Definition contains_constant (t : tree) : Prop := exists i, subtree (TConst i) t.
Definition contains_binary (t : tree) : Prop := exists op a b, subtree (TOp op [a; b]) t.
Definition is_operator (t : tree) : Prop := exists op cs, t = TOp op cs.

Definition weight_of {W} (c : choice) (w : weights W) : W :=
  match c with
  | MutateConstant => w_mutate_constant w | MutateOperator => w_mutate_operator w | MutateFeature => w_mutate_feature w
  | SwapOperands => w_swap_operands w | RotateTree => w_rotate_tree w | AddNode => w_add_node w | InsertNode => w_insert_node w
  | DeleteNode => w_delete_node w | Simplify => w_simplify w | Randomize => w_randomize w | DoNothing => w_do_nothing w | Optimize => w_optimize w
  end.

(** The mutation can do something on this tree under these settings. *)
Definition applicable {W} (FW : FloatOps W) (o : cond_opts W) (t : tree) (complexity curmaxsize nfeatures : nat) (c : choice) : Prop :=
  match c with
  | MutateConstant => contains_constant t
  | MutateOperator | DeleteNode => is_operator t
  | SwapOperands => contains_binary t
  | MutateFeature => if is_leaf_node (root_node t) then exists f, t = TVar f else 2 <= nfeatures
  | AddNode | InsertNode => is_operator t -> complexity < curmaxsize
  | Simplify => is_operator t /\ should_simplify o = true
  | Optimize => contains_constant t /\ (is_operator t -> should_optimize_constants o = true /\ feqb FW (optimizer_probability o) (fzero FW) = false)
  | RotateTree | Randomize | DoNothing => True
  end.

Lemma leaf_flatten t : forallb is_leaf_node (flatten t) = is_leaf_node (root_node t).
Proof. destruct t as [f|i|op cs]; cbn; auto. rewrite forallb_app. cbn. apply andb_false_r. Qed.
Lemma leaf_operator t : is_leaf_node (root_node t) = false <-> is_operator t.
Proof. split; [destruct t; cbn; try discriminate; intros _; eexists; eauto|]. intros (op & cs & ->). reflexivity. Qed.

Lemma count_constants_app a b : count_constants (a ++ b) = count_constants a + count_constants b.
Proof. unfold count_constants. rewrite filter_app, app_length. reflexivity. Qed.
Lemma count_constants_flatten t : count_constants (flatten t) = const_leaves t.
Proof.
  induction t as [f|i|op cs IH] using tree_ind'; try reflexivity. cbn [flatten const_leaves]. rewrite count_constants_app.
  change (count_constants [Op (List.length cs) op]) with 0. rewrite Nat.add_0_r. induction IH as [|c cs Hc Hcs IHl]; cbn [flat_map map sum_list]; auto.
  rewrite count_constants_app, Hc, IHl. reflexivity.
Qed.
Lemma const_leaves_pos t : 0 < const_leaves t <-> contains_constant t.
Proof.
  split.
  - induction t as [f|i|op cs IH] using tree_ind'; cbn [const_leaves]; [lia|exists i; constructor|].
    intros H. rewrite Forall_forall in IH. assert (He : exists c, In c cs /\ 0 < const_leaves c).
    { clear IH. induction cs as [|c cs IHc]; cbn in H; [lia|]. destruct (const_leaves c) eqn:E; [|exists c; split; [left; auto|lia]].
      destruct IHc as (c' & H1 & H2); auto. exists c'. split; [right|]; auto. }
    destruct He as (c & Hc & Hp). destruct (IH c Hc Hp) as (i & Hi). exists i. econstructor; eauto.
  - intros (i & H). remember (TConst i) as s eqn:Es. induction H as [s|s op cs c Hin Hs IH]; subst; cbn; [lia|].
    specialize (IH eq_refl). clear - Hin IH. induction cs as [|c' cs IHc]; [contradiction|]. cbn. destruct Hin as [->|Hin]; [lia|]. specialize (IHc Hin). lia.
Qed.
Lemma has_binary_flatten t : has_binary_op (flatten t) = true <-> contains_binary t.
Proof.
  unfold has_binary_op. split.
  - induction t as [f|i|op cs IH] using tree_ind'; cbn [flatten]; try discriminate. rewrite existsb_app. cbn [existsb is_binary_node]. rewrite orb_false_r, orb_true_iff.
    intros [H|H].
    + rewrite Forall_forall in IH. assert (He : exists c, In c cs /\ existsb is_binary_node (flatten c) = true).
      { clear IH. induction cs as [|c cs IHc]; [discriminate|]. cbn in H. rewrite existsb_app, orb_true_iff in H. destruct H as [H|H]; [exists c; cbn; auto|].
        destruct (IHc H) as (c' & H1 & H2). exists c'. cbn. auto. }
      destruct He as (c & Hc & Hb). destruct (IH c Hc Hb) as (op' & a & b & Hs). exists op', a, b. econstructor; eauto.
    + apply Nat.eqb_eq in H. destruct cs as [|a [|b [|? ?]]]; try discriminate. exists op, a, b. constructor.
  - intros (op & a & b & H). remember (TOp op [a; b]) as s eqn:Es. induction H as [s|s op' cs c Hin Hs IH]; subst.
    + cbn [flatten]. rewrite existsb_app. cbn. apply orb_true_r.
    + specialize (IH eq_refl). cbn [flatten]. rewrite existsb_app. apply orb_true_iff. left. apply existsb_exists in IH as (n & Hn & Hb).
      apply existsb_exists. exists n. split; auto. apply in_flat_map. exists c. auto.
Qed.

(** What conditioning does, for every weight. [no unused constants]: the constant table is empty exactly if the tree has no constant, as after
    compress_constants (C10). *)
Theorem C43_conditioning {T W} (FW : FloatOps W) of_nat (w : weights W) (e : expr T) t complexity o curmaxsize nfeatures :
  represents e t -> (consts e = [] <-> ~ contains_constant t) ->
  let w' := condition_mutation_weights FW of_nat w e complexity o curmaxsize nfeatures in
  (forall c, c = RotateTree \/ c = Randomize \/ c = DoNothing -> weight_of c w' = weight_of c w) /\
  (forall c, c <> MutateConstant -> weight_of c w' = weight_of c w \/ weight_of c w' = fzero FW) /\
  (forall c, c <> MutateConstant -> applicable FW o t complexity curmaxsize nfeatures c -> weight_of c w' = weight_of c w) /\
  (forall c, c <> MutateConstant -> ~ applicable FW o t complexity curmaxsize nfeatures c -> weight_of c w' = fzero FW) /\
  (~ is_operator t -> weight_of MutateConstant w' = if 0 <? const_leaves t then weight_of MutateConstant w else fzero FW) /\
  (is_operator t -> weight_of MutateConstant w' = fmul FW (weight_of MutateConstant w) (fdiv FW (of_nat (Nat.min (const_leaves t) 8)) (of_nat 8))).
Proof.
  intros Hr Hu. unfold condition_mutation_weights. cbn zeta. unfold represents in Hr. rewrite Hr, leaf_flatten, count_constants_flatten.
  assert (Hc : match consts e with [] => true | _ => false end = negb (0 <? const_leaves t)).
  { pose proof (const_leaves_pos t) as H. destruct (Nat.ltb_spec 0 (const_leaves t)) as [Hlt|Hge]; cbn [negb].
    - destruct (consts e); auto. exfalso. apply (proj1 Hu eq_refl). apply H. auto.
    - destruct (consts e) as [|c0 l0] eqn:E; auto. assert (c0 :: l0 = []); [|discriminate]. apply Hu. rewrite <- H. lia. }
  rewrite Hc. pose proof (leaf_operator t) as Hop. pose proof (has_binary_flatten t) as Hbin. pose proof (const_leaves_pos t) as Hpos.
  assert (Hnb : is_leaf_node (root_node t) = true -> ~ contains_binary t).
  { intros Hl Hb. apply Hbin in Hb. destruct t; discriminate. }
  assert (Hleafc : is_leaf_node (root_node t) = true -> ~ contains_constant t <-> exists f, t = TVar f).
  { intros Hl. rewrite <- Hpos. destruct t as [f|i|]; cbn; try discriminate; split; intros H; eauto; try lia. destruct H; discriminate. }
  destruct (is_leaf_node (root_node t)) eqn:El.
  - assert (Hno : ~ is_operator t) by (intros Hx; apply Hop in Hx; discriminate). specialize (Hnb eq_refl). specialize (Hleafc eq_refl). clear Hop Hbin.
    destruct (Nat.ltb_spec 0 (const_leaves t)) as [Hlt|Hge]; cbn [negb].
    + assert (Hk : contains_constant t) by (apply Hpos; auto).
      repeat split; intros; try (destruct c); cbn [weight_of w_mutate_constant w_mutate_operator w_mutate_feature w_swap_operands w_rotate_tree w_add_node w_insert_node w_delete_node w_simplify w_randomize w_do_nothing w_optimize applicable] in *;
        rewrite ?El in *; try (exfalso; clear -H; intuition discriminate); try tauto; try contradiction; try (exfalso; tauto); auto.
    + assert (Hk : ~ contains_constant t) by (rewrite <- Hpos; lia).
      repeat split; intros; try (destruct c); cbn [weight_of w_mutate_constant w_mutate_operator w_mutate_feature w_swap_operands w_rotate_tree w_add_node w_insert_node w_delete_node w_simplify w_randomize w_do_nothing w_optimize applicable] in *;
        rewrite ?El in *; try (exfalso; clear -H; intuition discriminate); try tauto; try contradiction; try (exfalso; tauto); auto.
  - assert (Hyes : is_operator t) by (apply Hop; auto). clear Hnb Hleafc.
    assert (Hbin' : if has_binary_op (flatten t) then contains_binary t else ~ contains_binary t).
    { destruct (has_binary_op (flatten t)) eqn:E; [apply Hbin; auto|]. intros H. apply Hbin in H. congruence. }
    assert (Hcon : if 0 <? const_leaves t then contains_constant t else ~ contains_constant t).
    { destruct (Nat.ltb_spec 0 (const_leaves t)); [apply Hpos; auto|]. rewrite <- Hpos. lia. }
    clear Hop Hbin Hpos Hu Hc.
    repeat split; intros; try (destruct c); cbn [weight_of w_mutate_constant w_mutate_operator w_mutate_feature w_swap_operands w_rotate_tree w_add_node w_insert_node w_delete_node w_simplify w_randomize w_do_nothing w_optimize applicable] in *;
      rewrite ?El in *; try (exfalso; clear -H; intuition discriminate); try tauto; try congruence; try (exfalso; tauto); auto;
      repeat match goal with
      | |- context [?a <=? ?b] => destruct (Nat.leb_spec a b)
      | |- context [if has_binary_op (flatten t) then _ else _] => destruct (has_binary_op (flatten t))
      | |- context [if should_simplify o then _ else _] => destruct (should_simplify o) eqn:?
      | |- context [negb (should_optimize_constants o)] => destruct (should_optimize_constants o) eqn:?
      | |- context [feqb ?a ?b ?c] => destruct (feqb a b c) eqn:?
      | |- context [0 <? ?x] => destruct (0 <? x) eqn:?
      end; cbn [negb orb] in *; auto; try tauto; try lia; try congruence;
      try (exfalso; match goal with H : ~ _ |- _ => apply H; clear H; auto; try lia; intuition congruence end);
      try (exfalso; intuition (congruence || lia)).
Qed.

Lemma choices_weight {W} (w : weights W) i c x : nth_error (choices w) i = Some (c, x) -> x = weight_of c w.
Proof.
  unfold choices. intros H. do 12 (destruct i as [|i]; [cbn in H; injection H as <- <-; reflexivity|]). destruct i; discriminate.
Qed.
Lemma choices_all {W} (w : weights W) c : In (c, weight_of c w) (choices w).
Proof. destruct c; cbn; tauto. Qed.

Section C43_exact.
Context {T W : Type} (FW : FloatOps W) (val : W -> Q) (X : ExactLaws FW val) (of_nat : nat -> W).
Hypothesis of_nat_exact : forall n, ffinite FW (of_nat n) = true /\ (val (of_nat n) == inject_Z (Z.of_nat n))%Q.

(** In exact arithmetic, from non-negative finite weights: the choice has a positive weight after conditioning and is applicable; and there is a
    panic exactly if conditioning leaves no positive weight. *)
Theorem C43_sampled_is_applicable (r : rng W) (w : weights W) (e : expr T) t complexity o curmaxsize nfeatures : let u := rg_real r 0 in
  represents e t -> (consts e = [] <-> ~ contains_constant t) -> (forall c, weight_ok FW val (weight_of c w)) ->
  ffinite FW u = true -> (0 <= val u < 1)%Q ->
  let w' := condition_mutation_weights FW of_nat w e complexity o curmaxsize nfeatures in
  ((exists c, (0 < val (weight_of c w'))%Q) ->
     exists c r', sample_mutation FW r w' = Ok (c, r') /\ (0 < val (weight_of c w'))%Q /\ applicable FW o t complexity curmaxsize nfeatures c) /\
  ((forall c, ~ (0 < val (weight_of c w'))%Q) -> sample_mutation FW r w' = Panic).
Proof.
  intros u Hr Hused Hw Hu Pu w'. destruct (C43_conditioning FW of_nat w e t complexity o curmaxsize nfeatures Hr Hused) as (_ & Hor & _ & Hna & Hml & Hmo).
  fold w' in Hor, Hna, Hml, Hmo. destruct (ex_zero _ _ X) as [Hz Ez].
  assert (Hmc : weight_ok FW val (weight_of MutateConstant w') /\ (~ contains_constant t -> (val (weight_of MutateConstant w') == 0)%Q)).
  { pose proof (const_leaves_pos t) as Hp. destruct (is_leaf_node (root_node t)) eqn:El.
    - assert (Hno : ~ is_operator t) by (rewrite <- leaf_operator; congruence). rewrite (Hml Hno). destruct (Nat.ltb_spec 0 (const_leaves t)).
      + split; auto. intros Hc. exfalso. apply Hc, Hp. auto.
      + split; [split; auto; lra|]. auto.
    - apply leaf_operator in El. rewrite (Hmo El). destruct (of_nat_exact (Nat.min (const_leaves t) 8)) as [E1 V1]. destruct (of_nat_exact 8) as [E2 V2].
      destruct (Hw MutateConstant) as [Hf Hp0].
      destruct (ex_div _ _ X _ _ E1 E2) as [Ed Vd]; [rewrite V2; change (inject_Z (Z.of_nat 8)) with 8%Q; lra|].
      destruct (ex_mul _ _ X _ _ Hf Ed) as [Em Vm]. rewrite V1, V2 in Vd. change (inject_Z (Z.of_nat 8)) with 8%Q in Vd. set (k := Nat.min (const_leaves t) 8) in *.
      assert (Pk : (0 <= inject_Z (Z.of_nat k))%Q) by (change 0%Q with (inject_Z 0); rewrite <- Zle_Qle; lia).
      assert (Vd' : (val (fdiv FW (of_nat k) (of_nat 8)) * 8 == inject_Z (Z.of_nat k))%Q) by (rewrite Vd; field).
      split.
      + split; auto. rewrite Vm. nra.
      + intros Hc. assert (Hk0 : k = 0) by (unfold k; destruct (const_leaves t) eqn:E; auto; exfalso; apply Hc, Hp; lia).
        clearbody k. subst k. change (inject_Z (Z.of_nat 0)) with 0%Q in Vd'. rewrite Vm.
        assert (Hv0 : (val (fdiv FW (of_nat 0) (of_nat 8)) == 0)%Q) by lra. rewrite Hv0. lra. }
  destruct Hmc as [Hmc1 Hmc2].
  assert (Hok : forall c, weight_ok FW val (weight_of c w')).
  { intros c. destruct (choice_eqb c MutateConstant) eqn:Ec; [destruct c; try discriminate; auto|].
    destruct (Hor c) as [E|E]; [intros ->; discriminate| |]; rewrite E; auto. split; auto. lra. }
  assert (Hall : Forall (weight_ok FW val) (map snd (choices w'))).
  { apply Forall_forall. intros x Hx. apply in_map_iff in Hx as ((c & x') & <- & Hin). apply In_nth_error in Hin as (i & Hi). apply choices_weight in Hi. cbn [snd]. subst. auto. }
  split.
  - intros (c0 & Hc0). destruct (C29_weighted_index FW val X r (map snd (choices w')) Hall) as (i & r' & x & E & Hn & Hx & _); auto.
    { apply Exists_exists. exists (weight_of c0 w'). split; auto. apply in_map_iff. exists (c0, weight_of c0 w'). split; auto. apply choices_all. }
    rewrite nth_error_map in Hn. destruct (nth_error (choices w') i) as [[c x']|] eqn:Ei; [|discriminate]. cbn in Hn. injection Hn as ->.
    exists c, r'. unfold sample_mutation. rewrite E. cbn [bind]. unfold index. rewrite Ei. cbn [expect bind fst]. split; auto.
    pose proof (choices_weight _ _ _ _ Ei) as ->. split; auto.
    destruct (choice_eqb c MutateConstant) eqn:Ec.
    + destruct c; try discriminate. cbn [applicable]. pose proof (const_leaves_pos t) as Hp. destruct (Nat.ltb_spec 0 (const_leaves t)); [apply Hp; auto|].
      exfalso. assert (Hnc : ~ contains_constant t) by (rewrite <- Hp; lia). specialize (Hmc2 Hnc). lra.
    + assert (Hne : c <> MutateConstant) by (intros ->; discriminate).
      assert (Hdec : applicable FW o t complexity curmaxsize nfeatures c \/ ~ applicable FW o t complexity curmaxsize nfeatures c).
      { pose proof (const_leaves_pos t) as Hp. pose proof (has_binary_flatten t) as Hb. pose proof (leaf_operator t) as Hl.
        assert (D1 : contains_constant t \/ ~ contains_constant t) by (destruct (Nat.ltb_spec 0 (const_leaves t)); [left; apply Hp; auto|right; rewrite <- Hp; lia]).
        assert (D2 : contains_binary t \/ ~ contains_binary t) by (destruct (has_binary_op (flatten t)) eqn:E2; [left; apply Hb; auto|right; intros H; apply Hb in H; congruence]).
        assert (D3 : is_operator t \/ ~ is_operator t) by (destruct (is_leaf_node (root_node t)) eqn:E2; [right; intros H; apply Hl in H; congruence|left; apply Hl; auto]).
        clear - D1 D2 D3. destruct c; cbn [applicable]; auto; try tauto.
        - destruct (is_leaf_node (root_node t)) eqn:E2; [|destruct (Nat.le_gt_cases 2 nfeatures); [auto|right; lia]].
          destruct t; try discriminate; [left; eauto|right; intros (f & H); discriminate].
        - destruct (Nat.lt_ge_cases complexity curmaxsize); [auto|]. destruct D3; [right; intros Hx; specialize (Hx H0); lia|left; tauto].
        - destruct (Nat.lt_ge_cases complexity curmaxsize); [auto|]. destruct D3; [right; intros Hx; specialize (Hx H0); lia|left; tauto].
        - destruct (should_simplify o); [tauto|right; intros [_ H]; discriminate].
        - destruct (should_optimize_constants o), (feqb FW (optimizer_probability o) (fzero FW)); intuition (try discriminate; auto);
            destruct D3; try (right; intros [_ Hx]; destruct (Hx H0); discriminate); try (left; split; [auto|intros Hx; contradiction]); try tauto. }
      destruct Hdec as [|Hn']; auto. rewrite (Hna c Hne Hn') in Hx. rewrite Ez in Hx. lra.
  - intros Hnone. unfold sample_mutation. assert (EP : weighted_index FW r (map snd (choices w')) = Panic).
    { apply (C29_panics_exactly FW val X). intros [_ He]. apply Exists_exists in He as (x & Hin & Hp). apply in_map_iff in Hin as ((c & x') & <- & Hin).
      apply In_nth_error in Hin as (i & Hi). apply choices_weight in Hi. cbn [snd] in Hp. subst. apply (Hnone c). auto. }
    rewrite EP. reflexivity.
Qed.
End C43_exact.

(** In binary64, [Optimize] has weight 0 by default and stands last: a draw near 1 can fall through to it (weights 0.03 and 0.26, all others 0). *)
Theorem C43_zero_weight_refuted :
  let z := fzero f64ops in
  let w := mkWeights (f64lit 1080863910568919 (-55)) (f64lit 1170935903116329 (-52)) z z z z z z z z z z in
  match sample_mutation f64ops (mkRng (fun _ => 0) (fun _ => f64lit 4503599627370495 (-52))) w with
  | Ok (c, _) => c = Optimize /\ weight_of c w = z
  | _ => False
  end.
Proof. vm_compute. auto. Qed.

(** A single leaf keeps the weight of [Optimize] even when constant optimisation is switched off. *)
Theorem C43_leaf_ignores_options_refuted :
  let w := mkWeights (XF 1) (XF 1) (XF 1) (XF 1) (XF 1) (XF 1) (XF 1) (XF 1) (XF 1) (XF 1) (XF 1) (XF 1) in
  weight_of Optimize (condition_mutation_weights xqops (fun n => XF (inject_Z (Z.of_nat n))) w (mkExpr [Const 0] [XF 3] []) 1 (mkCond false false (XF 0)) 1 1) = XF 1
  /\ weight_of AddNode (condition_mutation_weights xqops (fun n => XF (inject_Z (Z.of_nat n))) w (mkExpr [Const 0] [XF 3] []) 1 (mkCond false false (XF 0)) 1 1) = XF 1.
Proof. vm_compute. auto. Qed.

(** x0 * 3 under all-one weights: everything applies but the growing mutations, since the size limit is reached. *)
Example C43_case :
  let w := mkWeights (XF 1) (XF 1) (XF 1) (XF 1) (XF 1) (XF 1) (XF 1) (XF 1) (XF 1) (XF 1) (XF 1) (XF 1) in
  let e := mkExpr [Var 0; Const 0; Op 2 5] [XF 3] [] in
  represents e (TOp 5 [TVar 0; TConst 0]) /\ (consts e = [] <-> ~ contains_constant (TOp 5 [TVar 0; TConst 0])) /\
  map (fun c => Qred (xval (snd c))) (choices (condition_mutation_weights xqops (fun n => XF (inject_Z (Z.of_nat n))) w e 3 (mkCond true true (XF 1)) 3 2))
  = [1 # 8; 1; 1; 1; 1; 0; 0; 1; 1; 1; 1; 1]%Q.
Proof.
  split; [reflexivity|]. split; [|vm_compute; reflexivity]. split; [discriminate|]. intros H. exfalso. apply H. exists 0. apply sub_child with (c := TConst 0); [right; left; reflexivity|constructor].
Qed.

Print Assumptions C31_warmup.
Print Assumptions C43_conditioning.
Print Assumptions C43_sampled_is_applicable.
Print Assumptions C43_zero_weight_refuted.
