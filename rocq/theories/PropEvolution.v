(** Property C42: evolution only admits well-formed, feasible offspring. *)
From Coq Require Import QArith.
From Verif Require Import Base BaseLemmas Node Tree NodeProofs SpanProofs Compile Eval Deriv Utils UtilsProofs PropUtils Simplify PropSimplify Rng Registry PropRegistry
  Lit Mutation MutationProofs PropMutation Complexity ComplexitySpec ComplexityProofs PropComplexity Num Member PropHof Selection SelectionProofs PropSelection
  Conditioning Dataset Loss PropLoss Optim PropOptim ConstOpt PropConstOpt Evolution Frames Instances.
Local Open Scope nat_scope.

(** ** Specification *)

(** Operator [op] of arity [a] is one of the configured ones. *)
Definition reg_known (reg : registry) (a op : nat) : bool := existsb (opid_eqb (a, op)) (ops_of_arity reg a).

(** An expression over the configured operators and [nf] features: a complete tree, all indices in range, at most [B] nodes. *)
Definition wf_expr {T} (E : evo_cfg T) (nf B : nat) (e : expr T) : Prop :=
  exists t, represents e t /\ tree_ok (ec_D (eo_C E)) nf (List.length (consts e)) (reg_known (eo_reg E)) t
    /\ List.length (nodes e) <= B /\ List.length (consts e) <= B.

(** The expression satisfies all constraints at size limit [cur]. *)
Definition within {T} (E : evo_cfg T) (cur : nat) (e : expr T) : Prop :=
  exists t, represents e t /\ feasible (ec_size (eo_C E)) cur t.

(** A member whose fields agree: well-formed expression, plan compiled from it, complexity of it, cost computed from its loss
    (or both infinite: evaluation failed). *)
Record sound {T} (E : evo_cfg T) (nf B : nat) (bl : option T) (m : member T) : Prop := {
  so_expr : wf_expr E nf B (m_expr m);
  so_plan : plan_fresh (eo_C E) nf m;
  so_complexity : m_complexity m = Nat.min (ec_umax (eo_C E)) (sum_list (map (node_cost (ec_size (eo_C E))) (nodes (m_expr m))));
  so_cost : m_cost m = cost_of E (m_loss m) (m_complexity m) bl
            \/ (m_loss m = finf (ec_F (eo_C E)) /\ m_cost m = finf (ec_F (eo_C E))) }.

(** Same expression, complexity, loss and cost. *)
Definition same_content {T} (m m' : member T) : Prop :=
  m_expr m' = m_expr m /\ m_complexity m' = m_complexity m /\ m_loss m' = m_loss m /\ m_cost m' = m_cost m.

(** The configuration: known operators, u16-sized options, every node costs at least 1, and sizes well below 2^16. *)
Record evo_ok {T} (E : evo_cfg T) (nf B cur : nat) : Prop := {
  ok_setting : setting (ec_D (eo_C E)) nf (oknown (ec_O (eo_C E))) (eo_reg E);
  ok_widths : widths (ec_umax (eo_C E)) (ec_D (eo_C E)) (ec_size (eo_C E));
  ok_pos : forall n, 1 <= node_cost (ec_size (eo_C E)) n;
  ok_cur : cur <= B;
  ok_small : 2 * B + ec_D (eo_C E) <= u16_max }.

(** ** Lemmas *)
Lemma reg_known_spec reg a op : reg_known reg a op = true <-> registered reg a op.
Proof.
  unfold reg_known, registered. rewrite existsb_exists. split.
  - intros ([a' op'] & Hin & H). unfold opid_eqb in H. cbn in H. apply andb_true_iff in H as [H1 H2]. apply Nat.eqb_eq in H1, H2. subst. auto.
  - intros H. exists (a, op). split; auto. unfold opid_eqb. cbn. now rewrite !Nat.eqb_refl.
Qed.

Lemma reg_known_setting D nf known reg : setting D nf known reg -> setting D nf (reg_known reg) reg.
Proof.
  intros [[H1 H2] H3]. split; auto. split; auto. intros a op Ha Hin. destruct (H2 a op Ha Hin) as [E _]. split; auto.
  apply reg_known_spec. unfold registered. rewrite <- E at 1. destruct op as [a' o']. cbn in *. subst. exact Hin.
Qed.

Lemma reg_known_known D nf known reg a op : setting D nf known reg -> 1 <= a <= D -> reg_known reg a op = true -> known a op = true.
Proof. intros [[_ H] _] Ha Hk. apply reg_known_spec in Hk. apply (H a (a, op) Ha Hk). Qed.

Lemma tree_ok_ops D nf nc k1 k2 t : tree_ok D nf nc k1 t ->
  (forall a op, 1 <= a <= D -> In (Op a op) (flatten t) -> k2 a op = true) -> tree_ok D nf nc k2 t.
Proof.
  induction t as [f|i|op cs IH] using tree_ind'; cbn [tree_ok]; auto. intros (Hl & _ & Hc) H.
  split; auto. split. { apply H; auto. cbn. apply in_or_app. right. left. reflexivity. }
  rewrite fold_right_and_Forall in *. rewrite Forall_forall in *. intros c Hin.
  apply IH; auto. intros a o Ha Hi. apply H; auto. cbn. apply in_or_app. left. apply in_flat_map. eauto.
Qed.
Lemma tree_ok_known D nf nc k t a op : tree_ok D nf nc k t -> In (Op a op) (flatten t) -> k a op = true.
Proof.
  induction t as [f|i|o cs IH] using tree_ind'; cbn [tree_ok flatten].
  - intros _ [H|[]]; discriminate.
  - intros _ [H|[]]; discriminate.
  - intros (Hl & Hk & Hc) Hin. apply in_app_or in Hin as [Hin|[E|[]]].
    + rewrite fold_right_and_Forall, Forall_forall in Hc. apply in_flat_map in Hin as (c & Hi & Hin).
      rewrite Forall_forall in IH. eapply IH; eauto.
    + injection E as <- <-. exact Hk.
Qed.

Lemma sum_ge_length (f : pnode -> nat) l : (forall n, 1 <= f n) -> List.length l <= sum_list (map f l).
Proof. intros H. induction l as [|n l IH]; cbn; [lia|]. specialize (H n). cbn in *. lia. Qed.

Section Evo.
Context {T : Type} (E : evo_cfg T) (nf B cur : nat) (bl : option T) (H : evo_ok E nf B cur).
Local Notation C := (eo_C E).
Local Notation F := (ec_F (eo_C E)).
Local Notation D := (ec_D (eo_C E)).
Local Notation known := (reg_known (eo_reg E)).
Local Notation wf := (wf_expr E nf B).

Lemma feasible_nodes (e : expr T) t : represents e t -> feasible (ec_size C) cur t -> List.length (nodes e) <= cur.
Proof.
  intros Hr (_ & Hc & _). rewrite cost_nodes in Hc. unfold represents in Hr. rewrite Hr.
  pose proof (sum_ge_length (node_cost (ec_size C)) (flatten t) (ok_pos _ _ _ _ H)). lia.
Qed.

Lemma complexity_of (e : expr T) c : expr_ok D nf known e -> List.length (nodes e) <= B ->
  compute_complexity (ec_umax C) D (ec_size C) (nodes e) = Ok c ->
  c = Nat.min (ec_umax C) (sum_list (map (node_cost (ec_size C)) (nodes e))).
Proof.
  intros He Hl Hc. pose proof (ok_widths _ _ _ _ H) as W. pose proof (w_umax _ _ _ W). pose proof (ok_small _ _ _ _ H).
  rewrite (C22_complexity_is_node_cost_sum T (ec_umax C) D nf known (ec_size C) e W He) in Hc by lia. congruence.
Qed.

Lemma mutates_wf r e P N b e' g : mutates F D nf known r e P N -> r = Ok (b, e', g) -> expr_ok D nf known e'.
Proof. intros (b1 & e1 & g1 & x & -> & Hd & Hx & _) [= <- <- <-]. apply (expr_ok_denotes F). eauto. Qed.

Lemma wf_denotes e : wf e -> exists x, denotes F e x /\ x_ok D nf known x.
Proof. intros (t & Hr & Ht & _). apply expr_ok_denotes. exists t. auto. Qed.

(** Whatever the mutation, its result is a well-formed expression over the configured operators and features. *)
Lemma apply_wf c g ev m d temp o g' ev' : wf (m_expr m) -> ds_n_features d = nf ->
  apply E c g ev m (m_expr m) d bl temp cur = Ok (o, g', ev') -> expr_ok D nf known (fst (fst (fst o))).
Proof.
  intros Hwf Hnf Ha. destruct (wf_denotes _ Hwf) as (x & Hd & Hx).
  pose proof (reg_known_setting _ _ _ _ (ok_setting _ _ _ _ H)) as Hs. pose proof Hs as (Hreg & Hnf' & HD).
  pose proof (ok_small _ _ _ _ H) as Hsm. destruct Hwf as (t & Hr & Ht & Hn & Hc).
  unfold apply in Ha. rewrite Hnf in Ha.
  assert (Hin : forall r P N, mutates F D nf known r (m_expr m) P N -> in_place ev r = Ok (o, g', ev') -> expr_ok D nf known (fst (fst (fst o)))).
  { intros r P N Hm Hi. unfold in_place in Hi. apply bind_ok in Hi as ([[b e1] g1] & Er & Hi). injection Hi as <- _ _. eapply mutates_wf; eauto. }
  destruct c.
  - eapply Hin; [|exact Ha]. eapply C19_mutate_constant; eauto.
  - eapply Hin; [|exact Ha]. eapply C19_mutate_operator; eauto.
  - eapply Hin; [|exact Ha]. eapply C19_mutate_feature; eauto. apply Hnf'.
  - eapply Hin; [|exact Ha]. eapply C21_swap; eauto.
  - eapply Hin; [|exact Ha]. eapply C21_rotate; eauto.
  - eapply Hin; [|exact Ha]. eapply C19_add; eauto. lia.
  - eapply Hin; [|exact Ha]. eapply C19_insert; eauto. lia.
  - eapply Hin; [|exact Ha]. eapply C19_delete; eauto. lia.
  - apply bind_ok in Ha as ([e1 ch] & Es & Ha). injection Ha as <- _ _. cbn [fst].
    assert (Ht' : tree_ok D nf (List.length (consts (m_expr m))) (oknown (ec_O C)) t).
    { eapply tree_ok_ops; [exact Ht|]. intros a op Ha Hi. eapply reg_known_known; [apply H|auto|]. eapply tree_ok_known; eauto. }
    destruct (C15_simplify_well_formed T F (ec_O C) D nf (eo_ccfg E) ev_opts (m_expr m) t Hr Ht') as (e2 & ch2 & t2 & E2 & R2 & T2 & _ & Ho & _).
    { unfold represents in Hr. rewrite <- flatten_length, <- Hr. lia. }
    rewrite E2 in Es. injection Es as -> ->. exists t2. split; auto. eapply tree_ok_ops; [exact T2|]. intros a op Ha Hi.
    unfold represents in R2. rewrite <- R2 in Hi. apply Ho in Hi. rewrite Hr in Hi. eapply tree_ok_known; eauto.
  - apply bind_ok in Ha as ([target g1] & Eu & Ha). apply bind_ok in Ha as ([e1 g2] & Er & Ha). injection Ha as <- _ _. cbn [fst].
    set (ms := Nat.min (Nat.max cur 1) (Nat.max (sel_maxsize (eo_sel E)) 1)) in Eu.
    assert (Hms : 1 <= ms <= Nat.max cur 1) by (unfold ms; lia).
    destruct (usize_range_inclusive_ok g 1 ms) as (k & g3 & Ek & Hk); [lia|]. rewrite Ek in Eu. injection Eu as <- <-.
    pose proof (ok_cur _ _ _ _ H). assert (1 <= u16_max) by (unfold u16_max; lia).
    destruct (C18_random_expr T F D nf known (eo_reg E) k g3 Hs) as (e2 & g4 & x2 & E2 & D2 & X2 & _); [lia|].
    rewrite E2 in Er. injection Er as -> _. apply (expr_ok_denotes F). eauto.
  - injection Ha as <- _ _. exists t. auto.
  - apply bind_ok in Ha as (tmp & _ & Ha). apply bind_ok in Ha as ([[[[[[g1 m1] ev1] gc1] nb1] imp] k] & Eo & Ha). injection Ha as <- _ _.
    cbn [fst]. apply optimize_frame in Eo as (_ & _ & _ & En & _ & Ec & _). cbn [m_expr] in *. exists t. unfold represents. rewrite En, Ec. auto.
Qed.

Lemma compress_wf (e e' : expr T) ch : expr_ok D nf known e -> compress_constants e = Ok (e', ch) ->
  exists t', represents e' t' /\ tree_ok D nf (List.length (consts e')) known t' /\ List.length (consts e') <= List.length (nodes e')
    /\ List.length (nodes e') = List.length (nodes e).
Proof.
  intros (t & Hr & Ht) Hc.
  destruct (proj1 (C10_compress_total_iff T e)) as [_ Hu]; [eauto|].
  destruct (C10_compress_constants T e t D nf known Hr Ht Hu) as (e1 & c1 & t1 & E1 & R1 & T1 & _ & _ & F2 & U1 & _).
  rewrite E1 in Hc. injection Hc as -> ->. exists t1. split; auto. split; auto. apply Forall2_length in F2. split; auto.
  rewrite <- (seq_length (List.length (consts e')) 0), <- U1. apply first_uses_le.
Qed.

Lemma check_spec e t b : represents e t -> tree_ok D nf (List.length (consts e)) known t -> check E e cur = Ok b ->
  b = true <-> feasible (ec_size C) cur t.
Proof.
  intros Hr Ht Hc. pose proof (ok_widths _ _ _ _ H) as W. pose proof (w_umax _ _ _ W). pose proof (ok_small _ _ _ _ H). pose proof (ok_cur _ _ _ _ H).
  destruct (C23_check_constraints_exact T (ec_umax C) D nf known (eo_stale E) (ec_size C) cur e t W) as (b1 & E1 & Hb); auto; [lia|].
  unfold check in Hc. rewrite E1 in Hc. injection Hc as <-. exact Hb.
Qed.

Lemma attempts_spec c m d temp : wf (m_expr m) -> ds_n_features d = nf -> forall n g ev evals tree imm k g' ev',
  attempts E n c g ev m d bl temp cur evals = Ok (Some (tree, imm), k, g', ev') -> wf tree /\ within E cur tree.
Proof.
  intros Hwf Hnf. induction n as [|n IH]; intros g ev evals tree imm k g' ev' Ha; cbn in Ha; [discriminate|].
  apply bind_ok in Ha as ([[[[[e mu] k1] im] g1] ev1] & E1 & Ha). apply apply_wf in E1; auto. cbn [fst] in E1.
  destruct mu; cbn [negb] in Ha; [|eapply IH; eauto].
  apply bind_ok in Ha as ([tr ch] & Ec & Ha). apply bind_ok in Ha as (ok & Ek & Ha).
  destruct (compress_wf _ _ _ E1 Ec) as (t & Hr & Ht & Hcn & _). destruct ok; [|eapply IH; eauto].
  injection Ha as <- <- _ _ _. pose proof (proj1 (check_spec _ _ _ Hr Ht Ek) eq_refl) as Hf.
  pose proof (feasible_nodes _ _ Hr Hf). pose proof (ok_cur _ _ _ _ H).
  split; [exists t; repeat split; auto; lia|]. exists t. auto.
Qed.

Lemma from_expr_sound id par b e m c l k : wf e -> from_expr C id par b e nf = Ok m ->
  c = Nat.min (ec_umax C) (sum_list (map (node_cost (ec_size C)) (nodes e))) ->
  (k = cost_of E l c bl \/ l = finf F /\ k = finf F) -> sound E nf B bl (set_eval m c l k).
Proof.
  intros Hwf Hm Hc Hk. apply from_expr_frame in Hm as (_ & _ & _ & He & Hp). split; cbn; rewrite ?He; auto.
  unfold plan_fresh. cbn. rewrite He. exact Hp.
Qed.

Lemma copy_parent_spec id b m m' : sound E nf B bl m -> copy_parent E id b m nf = Ok m' ->
  sound E nf B bl m' /\ same_content m m' /\ m_id m' = id /\ m_parent m' = Some (m_id m) /\ m_birth m' = b.
Proof.
  intros [S1 S2 S3 S4] Hc. unfold copy_parent in Hc. apply bind_ok in Hc as (baby & Hb & Hc). injection Hc as <-.
  split; [eapply from_expr_sound; eauto|]. apply from_expr_frame in Hb as (I1 & I2 & I3 & I4 & _).
  unfold same_content. cbn. auto 10.
Qed.

Lemma expr_of_wf e : wf e -> expr_ok D nf known e /\ List.length (nodes e) <= B.
Proof. intros (t & Hr & Ht & Hn & _). split; auto. exists t. auto. Qed.

Lemma evaluate_sound m d ev m' ev' ok : wf (m_expr m) -> plan_fresh C nf m -> evaluate C m d bl ev = Ok (m', ev', ok) ->
  sound E nf B bl m' /\ m_id m' = m_id m /\ m_parent m' = m_parent m /\ m_birth m' = m_birth m /\ m_expr m' = m_expr m /\ m_plan m' = m_plan m.
Proof.
  intros Hwf Hp He. apply evaluate_frame in He as (c & l & k & -> & Hc & Hk). cbn. split; auto 10.
  destruct (expr_of_wf _ Hwf) as [Ho Hn]. split; cbn; auto.
  - eapply complexity_of; eauto.
  - destruct ok; [left; apply Hk|right; exact Hk].
Qed.

(** ** C42, one mutation step *)
Lemma next_generation_spec s m d temp st baby acc k s' : sound E nf B bl m -> ds_n_features d = nf ->
  next_generation E s m d bl temp cur st = Ok (baby, acc, k, s') ->
  sound E nf B bl baby /\ m_id baby = es_id s /\ m_parent baby = Some (m_id m) /\ m_birth baby = es_birth s
  /\ es_id s' = es_id s + 1 /\ es_birth s' = es_birth s + 1
  /\ if acc then within E cur (m_expr baby) else same_content m baby.
Proof.
  intros Hm Hnf Hng. unfold next_generation in Hng. rewrite Hnf in Hng. cbv zeta in Hng.
  apply bind_ok in Hng as ([c g] & _ & Hng). apply bind_ok in Hng as ([[[found evals] g1] ev1] & Ha & Hng).
  destruct found as [[tree imm]|].
  - apply attempts_spec in Ha as [Hwf Hin]; auto; [|apply Hm]. destruct imm.
    + apply bind_ok in Hng as (b1 & Hb1 & Hng). apply bind_ok in Hng as (b2 & Hb2 & Hng). apply bind_ok in Hng as (cx & Hcx & Hng).
      injection Hng as <- <- _ <-. pose proof (from_expr_frame _ _ _ _ _ _ _ Hb1) as (I1 & I2 & I3 & I4 & I5).
      unfold rebuild_plan in Hb2. apply bind_ok in Hb2 as (p & Hp & Hb2). injection Hb2 as <-. cbn [m_expr] in Hcx. rewrite I4 in *.
      destruct (expr_of_wf _ Hwf) as [Ho Hn]. apply complexity_of in Hcx; auto. cbn. rewrite ?I1, ?I2, ?I3, ?I4.
      split; [|auto 10]. split; cbn; rewrite ?I4; auto.
    + apply bind_ok in Hng as (b1 & Hb1 & Hng). pose proof (from_expr_frame _ _ _ _ _ _ _ Hb1) as (I1 & I2 & I3 & I4 & I5).
      apply bind_ok in Hng as ([[b2 ev2] ok] & He & Hng). apply evaluate_sound in He as (Hs & J1 & J2 & J3 & J4 & J5); [|rewrite I4; auto|unfold plan_fresh; rewrite I4; exact I5].
      destruct (negb ok || negb (ffinite F (to_w (eo_opt E) (m_cost b2) (finf F)))).
      * apply bind_ok in Hng as (rj & Hr & Hng). injection Hng as <- <- _ <-. apply copy_parent_spec in Hr; auto. cbn. tauto.
      * apply bind_ok in Hng as (prob & _ & Hng). destruct (rng_real g1) as [u g2]. destruct (fltb F prob u).
        -- apply bind_ok in Hng as (rj & Hr & Hng). injection Hng as <- <- _ <-. apply copy_parent_spec in Hr; auto. cbn. tauto.
        -- injection Hng as <- <- _ <-. cbn. rewrite J1, J2, J3, J4, I1, I2, I3, I4. auto 10.
  - apply bind_ok in Hng as (rj & Hr & Hng). injection Hng as <- <- _ <-. apply copy_parent_spec in Hr; auto. cbn. tauto.
Qed.

Lemma crossover_spec m1 m2 d : sound E nf B bl m1 -> sound E nf B bl m2 -> ds_n_features d = nf -> forall n s b1 b2 acc k s',
  crossover_loop E n s m1 m2 d bl cur = Ok (b1, b2, acc, k, s') ->
  sound E nf B bl b1 /\ sound E nf B bl b2
  /\ if acc then within E cur (m_expr b1) /\ within E cur (m_expr b2)
       /\ m_id b1 = es_id s /\ m_id b2 = es_id s + 1 /\ m_parent b1 = Some (m_id m1) /\ m_parent b2 = Some (m_id m2)
       /\ m_birth b1 = es_birth s /\ m_birth b2 = es_birth s + 1 /\ es_id s' = es_id s + 2 /\ es_birth s' = es_birth s + 2
     else b1 = m1 /\ b2 = m2 /\ es_id s' = es_id s /\ es_birth s' = es_birth s.
Proof.
  intros H1 H2 Hnf. induction n as [|n IH]; intros s b1 b2 acc k s' Hc; cbn [crossover_loop] in Hc.
  - injection Hc as <- <- <- _ <-. auto 10.
  - apply bind_ok in Hc as ([[c1 c2] g] & Hx & Hc). apply bind_ok in Hc as (ok1 & Hk1 & Hc). apply bind_ok in Hc as (ok & Hk & Hc).
    destruct ok; [|apply IH in Hc; exact Hc].
    destruct ok1; [|discriminate].
    destruct (wf_denotes _ (so_expr _ _ _ _ _ H1)) as (x1 & Hd1 & Hx1). destruct (wf_denotes _ (so_expr _ _ _ _ _ H2)) as (x2 & Hd2 & Hx2).
    pose proof (ok_small _ _ _ _ H) as Hsm.
    destruct (C20_crossover T F D nf known (es_rng s) (m_expr m1) (m_expr m2) x1 x2 Hd1 Hd2 Hx1 Hx2) as (a' & b' & g' & Ca & sa & Cb & sb & Ex & _ & _ & Da & Db & Xa & Xb & _ & _ & _ & La & Lb).
    { destruct H1 as [(? & _ & _ & _ & L1) _ _ _]. destruct H2 as [(? & _ & _ & _ & L2) _ _ _]. lia. }
    rewrite Ex in Hx. injection Hx as -> -> _.
    assert (Oa : expr_ok D nf known c1) by (apply (expr_ok_denotes F); eauto). assert (Ob : expr_ok D nf known c2) by (apply (expr_ok_denotes F); eauto).
    pose proof (ok_cur _ _ _ _ H).
    assert (Hwf : forall c, expr_ok D nf known c -> List.length (consts c) <= List.length (nodes c) -> check E c cur = Ok true -> wf c /\ within E cur c).
    { intros c (t & Hr & Ht) Hl Hch. pose proof (proj1 (check_spec _ _ _ Hr Ht Hch) eq_refl) as Hf. pose proof (feasible_nodes _ _ Hr Hf).
      split; [exists t; repeat split; auto; lia|exists t; auto]. }
    destruct (Hwf _ Oa La Hk1) as [Wa Ia]. destruct (Hwf _ Ob Lb Hk) as [Wb Ib].
    cbv zeta in Hc. rewrite Hnf in Hc.
    apply bind_ok in Hc as (y1 & Hy1 & Hc). apply bind_ok in Hc as (y2 & Hy2 & Hc). apply bind_ok in Hc as ([[z1 ev1] o1] & Hz1 & Hc).
    apply bind_ok in Hc as ([[z2 ev2] o2] & Hz2 & Hc). injection Hc as <- <- <- _ <-.
    apply from_expr_frame in Hy1 as (I1 & I2 & I3 & I4 & I5). apply from_expr_frame in Hy2 as (J1 & J2 & J3 & J4 & J5).
    apply evaluate_sound in Hz1 as (S1 & K1 & K2 & K3 & K4 & _); [|rewrite I4; auto|unfold plan_fresh; rewrite I4; exact I5].
    apply evaluate_sound in Hz2 as (S2 & L1 & L2 & L3 & L4 & _); [|rewrite J4; auto|unfold plan_fresh; rewrite J4; exact J5].
    rewrite K4, I4, L4, J4, K1, I1, L1, J1, K2, I2, L2, J2, K3, I3, L3, J3. cbn. auto 12.
Qed.

(** ** Cycles *)
Lemma tournament_in g pop st m g' : tournament E g pop st = Ok (m, g') -> In m pop.
Proof.
  unfold tournament, best_of_sample. intros Ht. apply bind_ok in Ht as ([idx r1] & _ & Ht). apply bind_ok in Ht as (sc & _ & Ht).
  apply bind_ok in Ht as ([pl r2] & _ & Ht). apply bind_ok in Ht as (_ & _ & Ht). apply bind_ok in Ht as ([w ch] & _ & Ht).
  apply bind_ok in Ht as (m1 & Hi & Ht). injection Ht as -> _. unfold index in Hi. destruct (nth_error pop ch) eqn:En; [|discriminate].
  cbn in Hi. injection Hi as ->. eapply nth_error_In; eauto.
Qed.

(** Each member of the new population was there already, or is new and satisfies [P]. *)
Definition each_new (P : member T -> Prop) (pop pop' : list (member T)) : Prop :=
  List.length pop' = List.length pop /\ forall m', In m' pop' -> In m' pop \/ P m'.

Lemma in_upd {A} (l : list A) i x y : In y (upd l i x) -> In y l \/ y = x.
Proof.
  intros Hy. apply In_nth_error in Hy as (j & Hj). apply nth_error_upd_cases in Hj as [[_ ->]|[_ Hj]]; auto. left. eapply nth_error_In; eauto.
Qed.
Lemma set_index_new (P : member T -> Prop) pop i x pop' : set_index pop i x = Ok pop' -> P x -> each_new P pop pop'.
Proof.
  unfold set_index. destruct (i <? List.length pop); [|discriminate]. intros [= <-] HP. split; [apply upd_length|].
  intros m' Hm. apply in_upd in Hm as [| ->]; auto.
Qed.
Lemma each_new_trans (P : member T -> Prop) a b c : each_new P a b -> each_new P b c -> each_new P a c.
Proof. intros [L1 H1] [L2 H2]. split; [congruence|]. intros m Hm. apply H2 in Hm as [Hm|Hm]; auto. Qed.
Lemma each_new_refl (P : member T -> Prop) a : each_new P a a.
Proof. split; auto. Qed.
Lemma each_new_impl (P Q : member T -> Prop) a b : (forall m, P m -> Q m) -> each_new P a b -> each_new Q a b.
Proof. intros HPQ [L H1]. split; auto. intros m Hm. apply H1 in Hm as [|]; auto. Qed.
Lemma replace_oldest_new (P : member T -> Prop) pop x pop' : replace_oldest pop x = Ok pop' -> P x -> each_new P pop pop'.
Proof. unfold replace_oldest. intros Hr HP. apply bind_ok in Hr as (i & _ & Hr). eapply set_index_new; eauto. Qed.
Lemma replace_two_new (P : member T -> Prop) pop x y pop' : replace_two_oldest pop x y = Ok pop' -> P x -> P y -> each_new P pop pop'.
Proof.
  unfold replace_two_oldest. intros Hr HP HQ. apply bind_ok in Hr as ([i j] & _ & Hr). apply bind_ok in Hr as (p1 & H1 & Hr).
  eapply each_new_trans; eapply set_index_new; eauto.
Qed.

(** What a new member is: sound, and feasible at the current limit or with the content of a member of [orig]. *)
Definition admitted (orig : list (member T)) (m' : member T) : Prop :=
  sound E nf B bl m' /\ (within E cur (m_expr m') \/ exists m, In m orig /\ same_content m m').

Lemma evol_step_spec pop s d temp st pop' s' k : Forall (sound E nf B bl) pop -> ds_n_features d = nf ->
  evol_step E pop s d bl temp cur st = Ok (pop', s', k) -> each_new (admitted pop) pop pop'.
Proof.
  intros Hp Hnf Hs. unfold evol_step in Hs. destruct (rng_real (es_rng s)) as [u g]. rewrite Forall_forall in Hp.
  destruct (fgtb F u (eo_crossover_prob E)).
  - apply bind_ok in Hs as ([a g1] & Ht & Hs). apply tournament_in in Ht. apply bind_ok in Hs as ([[[b acc] k1] s1] & Hn & Hs).
    apply next_generation_spec in Hn as (Hb & _ & _ & _ & _ & _ & Hacc); auto.
    destruct (negb acc && eo_skip_failures E); [injection Hs as <- _ _; apply each_new_refl|].
    apply bind_ok in Hs as (p1 & Hr & Hs). injection Hs as <- _ _. eapply replace_oldest_new; eauto. split; auto.
    destruct acc; eauto.
  - apply bind_ok in Hs as ([a1 g1] & Ht1 & Hs). apply tournament_in in Ht1. apply bind_ok in Hs as ([a2 g2] & Ht2 & Hs). apply tournament_in in Ht2.
    apply bind_ok in Hs as ([[[[b1 b2] acc] k1] s1] & Hn & Hs). apply crossover_spec in Hn as (Hb1 & Hb2 & Hacc); auto.
    destruct (negb acc && eo_skip_failures E); [injection Hs as <- _ _; apply each_new_refl|].
    apply bind_ok in Hs as (p1 & Hr & Hs). injection Hs as <- _ _. eapply replace_two_new; eauto; split; auto.
    + destruct acc; [left; apply Hacc|]. destruct Hacc as (-> & _). right. exists a1. split; auto. unfold same_content; auto.
    + destruct acc; [left; apply Hacc|]. destruct Hacc as (_ & -> & _). right. exists a2. split; auto. unfold same_content; auto.
Qed.

Lemma same_content_trans a b c : @same_content T a b -> same_content b c -> same_content a c.
Proof. unfold same_content. intuition congruence. Qed.

Lemma each_new_sound orig pop pop' : Forall (sound E nf B bl) pop -> each_new (admitted orig) pop pop' -> Forall (sound E nf B bl) pop'.
Proof. rewrite !Forall_forall. intros Hp [_ Hn] m Hm. apply Hn in Hm as [|[]]; auto. Qed.

(** A later change is a change with respect to the original population. *)
Lemma admitted_chain p0 p1 p2 : each_new (admitted p0) p0 p1 -> each_new (admitted p1) p1 p2 -> each_new (admitted p0) p0 p2.
Proof.
  intros [L1 H1] [L2 H2]. split; [congruence|]. intros m Hm. apply H2 in Hm as [Hm|[Hs Hw]]; [apply H1; auto|].
  right. split; auto. destruct Hw as [Hw|(m1 & Hm1 & Hc)]; auto. apply H1 in Hm1 as [Hm1|[_ Hw1]]; [eauto|].
  destruct Hw1 as [Hw1|(m0 & Hm0 & Hc0)]; [|right; exists m0; split; auto; eapply same_content_trans; eauto].
  left. destruct Hc as (-> & _). exact Hw1.
Qed.

Lemma evol_steps_spec d temp st : ds_n_features d = nf -> forall n pop s ev pop' s' k, Forall (sound E nf B bl) pop ->
  evol_steps E n pop s d bl temp cur st ev = Ok (pop', s', k) -> each_new (admitted pop) pop pop'.
Proof.
  intros Hnf. induction n as [|n IH]; intros pop s ev pop' s' k Hp Hs; cbn in Hs; [injection Hs as <- _ _; apply each_new_refl|].
  apply bind_ok in Hs as ([[p1 s1] k1] & H1 & Hs). apply evol_step_spec in H1; auto.
  eapply admitted_chain; [exact H1|]. eapply IH; [|exact Hs]. eapply each_new_sound; eauto.
Qed.

(** The members in a hall of fame: each sits at its own complexity, is sound and feasible. *)
Definition hall_ok (h : hof T) : Prop :=
  forall c m, stored h c m -> m_complexity m = c /\ sound E nf B bl m /\ within E cur (m_expr m).

Lemma consider_ok h m h' stale : hall_ok h -> sound E nf B bl m -> consider F (ec_umax C) D (ec_size C) stale h m cur = Ok h' ->
  hall_ok h' /\ List.length h' = List.length h.
Proof.
  intros Hh Hm Hc. unfold consider in Hc. apply bind_ok in Hc as (ok & Hk & Hc). destruct ok; cbn [negb] in Hc; [|injection Hc as <-; auto].
  destruct (m_complexity m =? 0); [injection Hc as <-; auto|]. destruct (List.length h <=? m_complexity m); [injection Hc as <-; auto|].
  assert (Hin : within E cur (m_expr m)).
  { destruct (so_expr _ _ _ _ _ Hm) as (t & Hr & Ht & _). exists t. split; auto.
    pose proof (ok_widths _ _ _ _ H) as W. pose proof (w_umax _ _ _ W). pose proof (ok_small _ _ _ _ H). pose proof (ok_cur _ _ _ _ H).
    destruct (C23_check_constraints_exact T (ec_umax C) D nf known stale (ec_size C) cur (m_expr m) t W) as (b1 & E1 & Hb); auto; [lia|].
    rewrite E1 in Hk. injection Hk as ->. apply Hb. reflexivity. }
  assert (Hset : forall h2, set_index h (m_complexity m) (Some m) = Ok h2 -> hall_ok h2 /\ List.length h2 = List.length h).
  { intros h2 Hs. unfold set_index in Hs. destruct (_ <? _); [|discriminate]. injection Hs as <-. split; [|apply upd_length].
    intros c m0 Hst. apply nth_error_upd_cases in Hst as [[<- E0]|[_ Hst]]; [injection E0 as ->; auto|apply Hh; auto]. }
  apply bind_ok in Hc as (slot & _ & Hc). destruct slot as [b|]; [|auto].
  destruct (is_less _); [auto|injection Hc as <-; auto].
Qed.
Lemma update_hof_ok pop : Forall (sound E nf B bl) pop -> forall h h', hall_ok h -> update_hof E h pop cur = Ok h' ->
  hall_ok h' /\ List.length h' = List.length h.
Proof.
  unfold update_hof, update_from_members. induction 1 as [|m pop Hm _ IH]; intros h h' Hh Hu; cbn in Hu; [injection Hu as <-; auto|].
  apply bind_ok in Hu as (h1 & H1 & Hu). apply consider_ok in H1 as [H1 L1]; auto. apply IH in Hu as [Hu L2]; auto. split; auto. congruence.
Qed.
Lemma hall_new_ok n : hall_ok (hof_new n).
Proof. intros c m Hst. unfold stored, hof_new, fill in Hst. apply nth_error_In, repeat_spec in Hst. discriminate. Qed.

Lemma offer_app h h1 h2 a b stale : offer_all F (ec_umax C) D (ec_size C) stale h a = Ok h1 -> offer_all F (ec_umax C) D (ec_size C) stale h1 b = Ok h2 ->
  offer_all F (ec_umax C) D (ec_size C) stale h (a ++ b) = Ok h2.
Proof. unfold offer_all. intros H1 H2. rewrite foldM_app, H1. exact H2. Qed.

Lemma sr_cycles_spec d st n : ds_n_features d = nf -> forall idx pop s best ev pop' s' best' k,
  Forall (sound E nf B bl) pop -> hall_ok best ->
  sr_cycles E idx n pop s best d bl cur st ev = Ok (pop', s', best', k) ->
  each_new (admitted pop) pop pop' /\ hall_ok best' /\ List.length best' = List.length best
  /\ exists hist, offer_all F (ec_umax C) D (ec_size C) (eo_stale E) best hist = Ok best'
       /\ Forall (fun p => sound E nf B bl (fst p) /\ snd p = cur) hist
       /\ (idx <> [] -> forall m, In m pop' -> In (m, cur) hist).
Proof.
  intros Hnf. induction idx as [|i idx IH]; intros pop s best ev pop' s' best' k Hp Hh Hs; cbn in Hs.
  - injection Hs as <- _ <- _. split; [apply each_new_refl|]. split; auto. split; auto. exists []. repeat split; auto. congruence.
  - apply bind_ok in Hs as ([[p1 s1] k1] & H1 & Hs). apply evol_steps_spec in H1; auto. pose proof (each_new_sound _ _ _ Hp H1) as Hp1.
    apply bind_ok in Hs as (b1 & Hb & Hs). destruct (update_hof_ok _ Hp1 _ _ Hh Hb) as [Hb1 Lb]. pose proof Hb as Hb0.
    unfold update_hof in Hb0. rewrite update_from_members_offers in Hb0.
    pose proof Hs as Hs0. apply IH in Hs as (H2 & Hb2 & L2 & hist & Eo & Hf & Hin); auto.
    split; [eapply admitted_chain; eauto|]. split; auto. split; [congruence|].
    exists (map (fun m => (m, cur)) p1 ++ hist). split; [eapply offer_app; eauto|]. split.
    { apply Forall_app. split; auto. apply Forall_map. cbn. eapply Forall_impl; [|exact Hp1]. auto. }
    intros _ m Hm. apply in_or_app. destruct idx as [|j idx]; [|right; apply Hin; [discriminate|auto]].
    cbn in Hs0. injection Hs0 as -> _ _ _. left. apply in_map_iff. eauto.
Qed.
End Evo.

(** ** C42 *)

(** A mutation step: the child is sound, numbered next, and feasible if accepted; otherwise it has exactly its parent's content. *)
Theorem C42_mutation : forall (T : Type) (E : evo_cfg T) nf B cur bl (s : evo_st T) m d temperature st baby accepted evals s',
  evo_ok E nf B cur -> sound E nf B bl m -> ds_n_features d = nf ->
  next_generation E s m d bl temperature cur st = Ok (baby, accepted, evals, s') ->
  sound E nf B bl baby /\ m_id baby = es_id s /\ m_parent baby = Some (m_id m) /\ m_birth baby = es_birth s
  /\ es_id s' = es_id s + 1 /\ es_birth s' = es_birth s + 1
  /\ if accepted then within E cur (m_expr baby) else same_content m baby.
Proof. intros T E nf B cur bl s m d temp st baby acc k s' H Hm Hnf Hn. eapply next_generation_spec; eauto. Qed.

(** A crossover: both children sound, numbered next and feasible, or the parents themselves. *)
Theorem C42_crossover : forall (T : Type) (E : evo_cfg T) nf B cur bl (s : evo_st T) m1 m2 d b1 b2 accepted evals s',
  evo_ok E nf B cur -> sound E nf B bl m1 -> sound E nf B bl m2 -> ds_n_features d = nf ->
  crossover_generation E s m1 m2 d bl cur = Ok (b1, b2, accepted, evals, s') ->
  sound E nf B bl b1 /\ sound E nf B bl b2
  /\ if accepted then within E cur (m_expr b1) /\ within E cur (m_expr b2)
       /\ m_id b1 = es_id s /\ m_id b2 = es_id s + 1 /\ m_parent b1 = Some (m_id m1) /\ m_parent b2 = Some (m_id m2)
       /\ m_birth b1 = es_birth s /\ m_birth b2 = es_birth s + 1 /\ es_id s' = es_id s + 2 /\ es_birth s' = es_birth s + 2
     else b1 = m1 /\ b2 = m2 /\ es_id s' = es_id s /\ es_birth s' = es_birth s.
Proof. intros T E nf B cur bl s m1 m2 d b1 b2 acc k s' H H1 H2 Hnf Hc. eapply crossover_spec; eauto. Qed.

(** A cycle: the population keeps its size and stays sound; a member that was not there before is feasible at the current limit
    or has the content of one that was. *)
Theorem C42_cycle : forall (T : Type) (E : evo_cfg T) nf B cur bl pop (s : evo_st T) d temperature st pop' s' evals,
  evo_ok E nf B cur -> Forall (sound E nf B bl) pop -> ds_n_features d = nf ->
  reg_evol_cycle E pop s d bl temperature cur st = Ok (pop', s', evals) ->
  List.length pop' = List.length pop
  /\ forall m', In m' pop' -> sound E nf B bl m'
     /\ (In m' pop \/ within E cur (m_expr m') \/ exists m, In m pop /\ same_content m m').
Proof.
  intros T E nf B cur bl pop s d temp st pop' s' k H Hp Hnf Hc. unfold reg_evol_cycle in Hc.
  apply (evol_steps_spec E nf B cur bl H) in Hc as [L Hn]; auto. split; auto. intros m' Hm. rewrite Forall_forall in Hp.
  destruct (Hn m' Hm) as [Hi|[Hs Hw]]; auto.
Qed.

(** All the cycles of an iteration: as above, and the hall of fame returned holds, at each complexity, only sound feasible members of that
    complexity; it is the hall of fame (C24) of a history containing every member of the populations at the start and at the end. *)
Theorem C42_iteration : forall (T : Type) (E : evo_cfg T) nf B cur bl pop (s : evo_st T) d st pop' s' best evals,
  evo_ok E nf B cur -> Forall (sound E nf B bl) pop -> ds_n_features d = nf ->
  s_r_cycle E pop s d bl cur st = Ok (pop', s', best, evals) ->
  List.length pop' = List.length pop
  /\ (forall m', In m' pop' -> sound E nf B bl m'
       /\ (In m' pop \/ within E cur (m_expr m') \/ exists m, In m pop /\ same_content m m'))
  /\ List.length best = sel_maxsize (eo_sel E) + 1
  /\ (forall c m, stored best c m -> m_complexity m = c /\ sound E nf B bl m /\ within E cur (m_expr m))
  /\ exists hist, offer_all (ec_F (eo_C E)) (ec_umax (eo_C E)) (ec_D (eo_C E)) (ec_size (eo_C E)) (eo_stale E) (hof_new (sel_maxsize (eo_sel E))) hist = Ok best
       /\ Forall (fun p => sound E nf B bl (fst p) /\ snd p = cur) hist
       /\ (forall m, In m pop \/ In m pop' -> In (m, cur) hist).
Proof.
  intros T E nf B cur bl pop s d st pop' s' best k H Hp Hnf Hc. unfold s_r_cycle in Hc.
  apply bind_ok in Hc as (b0 & Hb & Hc). destruct (update_hof_ok E nf B cur bl H pop Hp _ _ (hall_new_ok E nf B cur bl _) Hb) as [Hb0 Lb].
  pose proof Hc as Hc0. apply (sr_cycles_spec E nf B cur bl H) in Hc as ([L Hn] & Hh & Lh & hist & Eo & Hf & Hin); auto.
  split; auto. split; [|split; [|split]].
  - intros m' Hm. rewrite Forall_forall in Hp. destruct (Hn m' Hm) as [Hi|[Hs Hw]]; auto.
  - rewrite Lh, Lb. unfold hof_new. apply repeat_length.
  - exact Hh.
  - unfold update_hof in Hb. rewrite update_from_members_offers in Hb. exists (map (fun m => (m, cur)) pop ++ hist).
    split; [eapply offer_app; eauto|]. split.
    + apply Forall_app. split; auto. apply Forall_map. cbn. eapply Forall_impl; [|exact Hp]. auto.
    + intros m [Hm|Hm]; apply in_or_app; [left; apply in_map_iff; eauto|right].
      apply Hin; auto. destruct (Nat.max (eo_ncycles E) 1) eqn:En; [lia|discriminate].
Qed.

(** ** The second half of an iteration *)
Section Second.
Context {T : Type} (E : evo_cfg T) (nf B cur : nat) (bl : option T) (H : evo_ok E nf B cur).
Local Notation C := (eo_C E).
Local Notation D := (ec_D (eo_C E)).
Local Notation known := (reg_known (eo_reg E)).

(** What optimisation and simplification keep: ids and parents, and at most as many nodes. *)
Definition follows (m m' : member T) : Prop :=
  m_id m' = m_id m /\ m_parent m' = m_parent m /\ List.length (nodes (m_expr m')) <= List.length (nodes (m_expr m)).
Lemma follows_trans a b c : follows a b -> follows b c -> follows a c.
Proof. unfold follows. intros (A1 & A2 & A3) (B1 & B2 & B3). repeat split; try congruence. lia. Qed.

Definition good (m : member T) : Prop := wf_expr E nf B (m_expr m) /\ plan_fresh C nf m.

Lemma simplify_member_spec m m' : good m -> simplify_member E nf m = Ok m' -> good m' /\ follows m m' /\ m_birth m' = m_birth m.
Proof.
  intros [Hwf Hp] Hs. unfold simplify_member in Hs. apply bind_ok in Hs as ([e ch] & Es & Hs). cbv zeta in Hs. cbn [m_expr] in Hs.
  pose proof (ok_small _ _ _ _ H) as Hsm. destruct Hwf as (t & Hr & Ht & Hn & Hc).
  assert (Ht' : tree_ok D nf (List.length (consts (m_expr m))) (oknown (ec_O C)) t).
  { eapply tree_ok_ops; [exact Ht|]. intros a op Ha Hi. eapply reg_known_known; [apply H|auto|]. eapply tree_ok_known; eauto. }
  destruct (C15_simplify_well_formed T (ec_F C) (ec_O C) D nf (eo_ccfg E) ev_opts (m_expr m) t Hr Ht') as (e2 & ch2 & t2 & E2 & R2 & T2 & L2 & Ho & _ & Hu & _ & Hch).
  { unfold represents in Hr. rewrite <- flatten_length, <- Hr. lia. }
  rewrite E2 in Es. injection Es as -> ->.
  assert (Hw2 : wf_expr E nf B e).
  { exists t2. split; auto. split.
    - eapply tree_ok_ops; [exact T2|]. intros a op Ha Hi. unfold represents in R2. rewrite <- R2 in Hi. apply Ho in Hi. rewrite Hr in Hi. eapply tree_ok_known; eauto.
    - split; [lia|]. rewrite <- (seq_length (List.length (consts e)) 0), <- Hu. pose proof (first_uses_le (nodes e)). lia. }
  destruct ch.
  - unfold rebuild_plan in Hs. cbn [m_expr m_id m_parent m_birth] in Hs. apply bind_ok in Hs as (p & Ep & Hs). injection Hs as <-.
    unfold good, follows, plan_fresh. cbn. auto 10.
  - rewrite Hch in * by auto. injection Hs as <-. unfold good, follows, plan_fresh. cbn. auto 10.
Qed.

Lemma simplify_all ms ms' : Forall good ms -> mapM (simplify_member E nf) ms = Ok ms' -> Forall good ms' /\ Forall2 follows ms ms'.
Proof.
  intros Hg. revert ms'. induction Hg as [|m ms Hm Hg IH]; intros ms' Hs; cbn in Hs; [injection Hs as <-; auto|].
  apply bind_ok in Hs as (m' & H1 & Hs). apply bind_ok in Hs as (ms1 & H2 & Hs). injection Hs as <-.
  apply simplify_member_spec in H1 as (? & ? & _); auto. apply IH in H2 as []. auto.
Qed.

Lemma optimize_all d : forall ms s gc ev ms' s' gc' k, Forall good ms ->
  optimize_members E ms s gc d bl ev = Ok (ms', s', gc', k) -> Forall good ms' /\ Forall2 follows ms ms' /\ es_id s' = es_id s.
Proof.
  induction ms as [|m ms IH]; intros s gc ev ms' s' gc' k Hg Ho; cbn in Ho; [injection Ho as <- <- _ _; auto|].
  inversion Hg as [|? ? [Hw Hp] Hg']; subst. match type of Ho with (if ?b then _ else _) = _ => destruct b end.
  - apply bind_ok in Ho as ([[[[[[g1 m1] ev1] gc1] nb1] imp] k1] & Eo & Ho). apply bind_ok in Ho as ([[[ms1 s1] gc2] k2] & E2 & Ho). injection Ho as <- <- _ _.
    apply IH in E2 as (? & ? & E3); auto. apply optimize_frame in Eo as (I1 & I2 & I3 & I4 & _ & I5 & _). cbn in E3. split; [|split]; auto.
    + constructor; auto. split.
      * destruct Hw as (t & W1 & W2 & W3 & W4). exists t. unfold represents in *. rewrite I4, I5. auto.
      * unfold plan_fresh in *. rewrite I3, I4, I5. exact Hp.
    + constructor; auto. unfold follows. rewrite I4. auto.
  - apply bind_ok in Ho as ([[[ms1 s1] gc2] k2] & E2 & Ho). injection Ho as <- <- _ _. apply IH in E2 as (? & ? & E3); auto.
    split; [|split]; auto; constructor; auto; [split; auto|unfold follows; auto].
Qed.

Lemma evaluate_all d : forall ms ev ms' ev', Forall good ms -> evaluate_members E ms ev d bl = Ok (ms', ev') ->
  Forall (sound E nf B bl) ms' /\ Forall2 follows ms ms'.
Proof.
  induction ms as [|m ms IH]; intros ev ms' ev' Hg Ho; cbn in Ho; [injection Ho as <- _; auto|].
  inversion Hg as [|? ? [Hw Hp] Hg']; subst. apply bind_ok in Ho as ([[m1 ev1] ok] & E1 & Ho). apply bind_ok in Ho as ([ms1 ev2] & E2 & Ho).
  injection Ho as <- _. apply (evaluate_sound E nf B cur bl H) in E1 as (S1 & I1 & I2 & _ & I4 & _); auto. apply IH in E2 as []; auto.
  split; constructor; auto. unfold follows. rewrite I4. auto.
Qed.
Lemma Forall2_follows_trans a b c : Forall2 follows a b -> Forall2 follows b c -> Forall2 follows a c.
Proof.
  intros F1. revert c. induction F1; intros c F2; inversion F2; subst; constructor; auto. eapply follows_trans; eauto.
Qed.
Lemma follows_refl l : Forall2 follows l l.
Proof. induction l; constructor; auto. unfold follows. auto. Qed.
End Second.

(** After optimisation and simplification: the same members in the same places, none larger than before, all sound — even a member that was
    evaluated on other data, or whose loss and cost were never consistent, before. *)
Theorem C42_optimize_and_simplify : forall (T : Type) (E : evo_cfg T) nf B cur bl pop (s : evo_st T) gc full d pop' s' gc' evals,
  evo_ok E nf B cur -> ds_n_features full = nf ->
  Forall (fun m => wf_expr E nf B (m_expr m) /\ plan_fresh (eo_C E) nf m) pop ->
  optimize_and_simplify_population E pop s gc full d bl = Ok (pop', s', gc', evals) ->
  Forall (sound E nf B bl) pop'
  /\ Forall2 (fun m m' => m_id m' = m_id m /\ m_parent m' = m_parent m
                          /\ List.length (nodes (m_expr m')) <= List.length (nodes (m_expr m))) pop pop'
  /\ es_id s' = es_id s.
Proof.
  intros T E nf B cur bl pop s gc full d pop' s' gc' k H Hnf Hg Ho. unfold optimize_and_simplify_population in Ho. rewrite Hnf in Ho.
  apply bind_ok in Ho as (p1 & E1 & Ho). apply bind_ok in Ho as ([[[p2 s2] gc2] k2] & E2 & Ho). apply bind_ok in Ho as ([p3 ev3] & E3 & Ho).
  injection Ho as <- <- _ _. cbn [es_id].
  assert (S1 : Forall (good E nf B) p1 /\ Forall2 follows pop p1).
  { destruct (eo_simplify E); [eapply simplify_all; eauto|]. injection E1 as <-. split; [exact Hg|apply follows_refl]. }
  destruct S1 as [G1 F1].
  assert (S2 : Forall (good E nf B) p2 /\ Forall2 follows p1 p2 /\ es_id s2 = es_id s).
  { destruct (oc_enabled (eo_opt E) && _).
    - apply (optimize_all E nf B bl) in E2 as (? & ? & Ei); auto.
    - injection E2 as <- <- _ _. split; auto. split; [apply follows_refl|auto]. }
  destruct S2 as (G2 & F2 & Ei). eapply (evaluate_all E nf B cur bl H) in E3 as [G3 F3]; auto.
  split; auto. split; auto. eapply Forall2_follows_trans; [eapply Forall2_follows_trans; eauto|auto].
Qed.

(** ** A case: two members x0 + x0 and x0 * c; one iteration, exact rationals *)
Definition evo_demo (skip : bool) (cross : xq) : evo_cfg xq :=
  mkEvo (demo_cfg LMse) (mkOptCfg xqops xq_opt_ops (fun x => Some x) (fun x => Some x) false 2 0 0 (XF 0) default_bt)
    [[]; [(2, 0); (2, 5)]]
    (mkWeights (XF 0) (XF 0) (XF 0) (XF 0) (XF 0) (XF 1) (XF 0) (XF 0) (XF 0) (XF 0) (XF 0) (XF 0))
    false (XF 0) (fun _ _ _ v => v) (mkCfg (Some 0) (Some 5) (Some 7)) false (XF 1) false (fun x => x) (XF (1 # 1000000))
    (fun n => XF (inject_Z (Z.of_nat n))) cross skip (mkSel 2 (XF 1) false (XF 0) 9) 20 [] 4.
Definition evo_member (id b : nat) (e : expr xq) : res (member xq) :=
  let! m := from_expr (demo_cfg LMse) id None b e 1 in
  let! (m, _, _) := evaluate (demo_cfg LMse) m demo_data None (evaluator_new xqops 3) in Ok m.
Definition evo_start : evo_st xq :=
  mkEvoSt (mkRng (fun n => n * 7 + 3) (fun n => XF (Qmake (Z.of_nat (Nat.modulo (n + 2) 5)) 7))) (evaluator_new xqops 3) 2 2.
Definition evo_stats : stats xq := mkStats (XF 1) (repeat (XF 1) 10) (repeat (XF 1) 10).
Lemma evo_demo_ok skip cross : evo_ok (evo_demo skip cross) 1 9 9.
Proof.
  split.
  - split; [|split; [unfold u16_max; lia|cbn; unfold u8_max; lia]]. split; [reflexivity|]. intros [|[|[|a]]] op Ha Hin; cbn in Ha; try lia; cbn in Hin; try tauto.
    destruct Hin as [<-|[<-|[]]]; split; reflexivity.
  - constructor; cbn; try (unfold u16_max; lia); try discriminate.
  - intros [f|i|a op]; cbn; lia.
  - lia.
  - cbn. unfold u16_max. lia.
Qed.
Lemma evo_member_sound skip cross id b e m : wf_expr (evo_demo skip cross) 1 9 e -> evo_member id b e = Ok m ->
  sound (evo_demo skip cross) 1 9 None m.
Proof.
  intros Hw Hm. unfold evo_member in Hm. apply bind_ok in Hm as (m0 & H0 & Hm). apply bind_ok in Hm as ([[m1 ev] ok] & H1 & Hm). injection Hm as <-.
  apply (from_expr_frame (demo_cfg LMse)) in H0 as (_ & _ & _ & He & Hp).
  eapply (evaluate_sound (evo_demo skip cross) 1 9 9 None (evo_demo_ok skip cross)); [rewrite He; exact Hw| |exact H1].
  unfold plan_fresh. rewrite He. exact Hp.
Qed.
Example C42_case : exists a b,
  evo_ok (evo_demo true (XF (1 # 10))) 1 9 9
  /\ Forall (sound (evo_demo true (XF (1 # 10))) 1 9 None) [a; b]
  /\ m_expr a = demo_expr /\ m_expr b = mkExpr [Var 0; Const 0; Op 2 5] [XF 2] []
  /\ exists p s h k, s_r_cycle (evo_demo true (XF (1 # 10))) [a; b] evo_start demo_data None 9 evo_stats = Ok (p, s, h, k)
     /\ map m_id p = [4; 5] /\ map (fun m => List.length (nodes (m_expr m))) p = [7; 9]
     /\ map (option_map m_id) h = [None; None; None; Some 0; None; Some 2; None; Some 3; None; Some 5].
Proof.
  assert (Ha : exists a, evo_member 0 0 demo_expr = Ok a) by (eexists; vm_compute; reflexivity).
  assert (Hb : exists b, evo_member 1 1 (mkExpr [Var 0; Const 0; Op 2 5] [XF 2] []) = Ok b) by (eexists; vm_compute; reflexivity).
  destruct Ha as (a & Ha). destruct Hb as (b & Hb). exists a, b. split; [apply evo_demo_ok|]. split.
  - constructor; [|constructor; [|constructor]]; eapply evo_member_sound; eauto.
    + exists (TOp 0 [TVar 0; TVar 0]). split; [reflexivity|]. cbn. repeat split; lia.
    + exists (TOp 5 [TVar 0; TConst 0]). split; [reflexivity|]. cbn. repeat split; lia.
  - vm_compute in Ha, Hb. injection Ha as <-. injection Hb as <-. split; [reflexivity|]. split; [reflexivity|].
    do 4 eexists. split; [vm_compute; reflexivity|]. split; [reflexivity|]. split; reflexivity.
Qed.
Print Assumptions C42_mutation.
Print Assumptions C42_crossover.
Print Assumptions C42_cycle.
Print Assumptions C42_iteration.
Print Assumptions C42_optimize_and_simplify.
