(** Property C49, continued: when the premises of "a search does not panic" hold, and what happens when they do not. *)
From Coq Require Import QArith Lqa SpecFloat.
From Verif Require Import Base BaseLemmas Node Tree NodeProofs SpanProofs Compile CompileProofs Eval EvalProofs EvalTop Deriv DerivReach PropEval Utils UtilsProofs PropUtils Simplify PropSimplify
  Rng Registry PropRegistry Lit Mutation MutationProofs PropMutation Complexity ComplexitySpec ComplexityProofs PropComplexity Num Member SortProofs PropHof Selection SelectionProofs
  PropSelection Conditioning PropConditioning Dataset PropDataset Loss PropLoss Optim PropOptim PropOptimTotal ConstOpt PropConstOpt Evolution Frames PropEvolution Search PropSearch PropIds
  Ready Invariant PropWhole PropPanic Instances.
Local Open Scope nat_scope.

(** ** Draws, in exact arithmetic *)
Section Exact.
Context {W : Type} (F : FloatOps W) (val : W -> Q) (X : ExactLaws F val).

Lemma sum_exact ws : forall t, ffinite F t = true -> (0 <= val t)%Q -> Forall (weight_ok F val) ws ->
  ffinite F (fold_left (fadd F) ws t) = true /\ (val t <= val (fold_left (fadd F) ws t))%Q
  /\ (Exists (fun w => 0 < val w)%Q ws -> (0 < val (fold_left (fadd F) ws t))%Q).
Proof.
  induction ws as [|w ws IH]; intros t Ht Hp H; cbn [fold_left].
  - split; auto. split; [lra|]. intros He. inversion He.
  - inversion H as [|? ? [H1 H2] H3]; subst. destruct (ex_add _ _ X t w Ht H1) as [Hf Hv].
    destruct (IH (fadd F t w) Hf) as (I1 & I2 & I3); auto; [rewrite Hv; lra|]. split; auto. split; [rewrite Hv in I2; lra|].
    intros He. inversion He as [? ? Hw|? ? Hw]; subst; auto. rewrite Hv in I2. lra.
Qed.
Lemma exact_drawable ws : Forall (weight_ok F val) ws -> Exists (fun w => 0 < val w)%Q ws -> drawable F ws.
Proof.
  intros Hw He. destruct (ex_zero _ _ X) as [Hz Ez]. destruct (sum_exact ws (fzero F) Hz ltac:(lra) Hw) as (H1 & _ & H2). specialize (H2 He).
  split; [intros ->; inversion He|]. split.
  - eapply Forall_impl; [|exact Hw]. intros w [Hf Hp]. split; auto. destruct (fltb F w (fzero F)) eqn:El; auto. apply (ex_lt _ _ X) in El; auto. lra.
  - cbv zeta. split; auto. unfold fleb. destruct (fltb F _ _) eqn:El.
    + apply (ex_lt _ _ X) in El; auto. lra.
    + destruct (feqb F _ _) eqn:Eq; auto. apply (ex_eq _ _ X) in Eq; auto. lra.
Qed.

Variable of_nat : nat -> W.
Hypothesis of_nat_exact : forall n, ffinite F (of_nat n) = true /\ (val (of_nat n) == inject_Z (Z.of_nat n))%Q.

(** Weights that are finite and not negative, with a positive weight for one of the three kinds of mutation that conditioning leaves alone, can be drawn from whatever
    the expression, its complexity and the limits are. *)
Theorem C49_weights : forall (T : Type) (w : weights W) (e : expr T) complexity o cur nf,
  (forall c, weight_ok F val (weight_of c w)) ->
  (0 < val (weight_of RotateTree w))%Q \/ (0 < val (weight_of Randomize w))%Q \/ (0 < val (weight_of DoNothing w))%Q ->
  drawable F (map snd (choices (condition_mutation_weights F of_nat w e complexity o cur nf))).
Proof.
  intros T w e cx o cur nf Hw Hpos. destruct (ex_zero _ _ X) as [Hz Ez]. assert (Z0 : weight_ok F val (fzero F)) by (split; auto; lra).
  assert (Hk : weight_ok F val (fmul F (w_mutate_constant w) (fdiv F (of_nat (Nat.min (count_constants (nodes e)) 8)) (of_nat 8)))).
  { destruct (of_nat_exact (Nat.min (count_constants (nodes e)) 8)) as [E1 V1]. destruct (of_nat_exact 8) as [E2 V2]. destruct (Hw MutateConstant) as [Hf Hp0].
    destruct (ex_div _ _ X _ _ E1 E2) as [Ed Vd]; [rewrite V2; change (inject_Z (Z.of_nat 8)) with 8%Q; lra|].
    destruct (ex_mul _ _ X _ _ Hf Ed) as [Em Vm]. rewrite V1, V2 in Vd. change (inject_Z (Z.of_nat 8)) with 8%Q in Vd. set (k := Nat.min _ _) in *.
    assert (Pk : (0 <= inject_Z (Z.of_nat k))%Q) by (change 0%Q with (inject_Z 0); rewrite <- Zle_Qle; lia).
    assert (Vd' : (val (fdiv F (of_nat k) (of_nat 8)) * 8 == inject_Z (Z.of_nat k))%Q) by (rewrite Vd; field).
    cbn [weight_of] in *. split; auto. rewrite Vm. nra. }
  apply exact_drawable.
  - unfold condition_mutation_weights. cbv zeta. destruct (forallb _ _); cbn [choices map snd w_mutate_constant w_mutate_operator w_mutate_feature w_swap_operands w_rotate_tree w_add_node
      w_insert_node w_delete_node w_simplify w_randomize w_do_nothing w_optimize];
    repeat (apply Forall_cons; [repeat match goal with |- weight_ok _ _ (if ?b then _ else _) => destruct b end;
      first [exact Z0 | exact Hk | apply (Hw MutateConstant) | apply (Hw MutateOperator) | apply (Hw MutateFeature) | apply (Hw SwapOperands) | apply (Hw RotateTree) | apply (Hw AddNode)
        | apply (Hw InsertNode) | apply (Hw DeleteNode) | apply (Hw Simplify) | apply (Hw Randomize) | apply (Hw DoNothing) | apply (Hw Optimize)]|]); apply Forall_nil.
  - unfold condition_mutation_weights. cbv zeta. destruct (forallb _ _); cbn [choices map snd weight_of] in *; rewrite Exists_exists; cbn [In] ; destruct Hpos as [H|[H|H]]; eexists; (split; [|exact H]); cbn; tauto.
Qed.

(** A tournament place can be drawn if 0 < p (at p >= 1 the best place is taken without a draw). *)
Theorem C49_place : forall p, ffinite F p = true -> (0 < val p)%Q ->
  fgeb F p (fone F) = true \/ (fleb F p (fzero F) = false /\ forall n, 2 <= n -> drawable F (geometric F n p (fsub F (fone F) p))).
Proof.
  intros p Hf Hp. destruct (ex_zero _ _ X) as [Hz Ez]. destruct (ex_one _ _ X) as [Ho Eo]. destruct (fgeb F p (fone F)) eqn:Eg; auto. right.
  unfold fgeb in Eg. apply orb_false_iff in Eg as [G1 G2].
  assert (Hlt : (val p < 1)%Q).
  { destruct (Qlt_le_dec (val p) 1) as [|Hle]; auto. exfalso. destruct (Qlt_le_dec 1 (val p)) as [Hl|Hl].
    - assert (fltb F (fone F) p = true) by (apply (ex_lt _ _ X); auto; rewrite Eo; auto). congruence.
    - assert (feqb F p (fone F) = true) by (apply (ex_eq _ _ X); auto; rewrite Eo; lra). congruence. }
  split.
  - unfold fleb. destruct (fltb F p (fzero F)) eqn:El; [apply (ex_lt _ _ X) in El; auto; lra|]. destruct (feqb F p (fzero F)) eqn:Eq; auto. apply (ex_eq _ _ X) in Eq; auto. lra.
  - intros n Hn. destruct (ex_sub _ _ X _ _ Ho Hf) as [Hqf Hq]. set (q := fsub F (fone F) p) in *. rewrite Eo in Hq.
    assert (G : forall k cur, ffinite F cur = true -> (0 < val cur)%Q -> Forall (fun w => ffinite F w = true /\ (0 < val w)%Q) (geometric F k cur q)).
    { induction k as [|k IH]; intros cur Hc Hv; cbn [geometric]; constructor; auto. destruct (ex_mul _ _ X _ _ Hc Hqf) as [M1 M2]. apply IH; auto. rewrite M2. nra. }
    specialize (G n p Hf Hp). apply exact_drawable.
    + eapply Forall_impl; [|exact G]. intros w [H1 H2]. split; auto. lra.
    + destruct n as [|n]; [lia|]. cbn [geometric] in *. inversion G as [|? ? [_ H] _]; subst. left. exact H.
Qed.
End Exact.

(** ** Draws in binary64 with the default options *)

(** options.rs:10-36: the defaults, as the nearest binary64. *)
Definition default_weights : weights spec_float :=
  mkWeights (f64lit 4986385507424613 (-57)) (f64lit 5278218763278221 (-54)) (f64lit 7205759403792794 (-56)) (f64lit 7133701809754866 (-55)) (f64lit 4796333603149578 (-50))
    (f64lit 5561945539802563 (-51)) (f64lit 6456360425798343 (-59)) (f64lit 7836263351624663 (-53)) (f64lit 4819211889256620 (-61)) (f64lit 4630132762501097 (-63))
    (f64lit 4917930793088582 (-54)) (S754_zero false).
Definition f64_of_nat (n : nat) : spec_float := f64lit (Z.of_nat n) 0.

Definition drawableb {W} (F : FloatOps W) (ws : list W) : bool :=
  negb (match ws with [] => true | _ => false end) && forallb (fun w => ffinite F w && negb (fltb F w (fzero F))) ws
  && (let total := fold_left (fadd F) ws (fzero F) in ffinite F total && negb (fleb F total (fzero F))).
Lemma drawableb_ok {W} (F : FloatOps W) ws : drawableb F ws = true -> drawable F ws.
Proof.
  unfold drawableb. intros H. apply andb_true_iff in H as [H H3]. apply andb_true_iff in H as [H1 H2]. split; [intros ->; discriminate|]. split.
  - apply Forall_forall. intros w Hw. rewrite forallb_forall in H2. apply H2 in Hw. apply andb_true_iff in Hw as [Ha Hb]. split; auto. apply negb_true_iff; auto.
  - cbv zeta in *. apply andb_true_iff in H3 as [Ha Hb]. split; auto. apply negb_true_iff; auto.
Qed.

(** The conditioned weights are determined by seven flags and a number of at most 8. *)
Definition conditioned {W} (F : FloatOps W) (of_nat : nat -> W) (w : weights W) (leaf noc one_feature binary full simp opt : bool) (k : nat) : weights W :=
  let z := fzero F in
  if leaf then mkWeights (if noc then z else w_mutate_constant w) z (if noc then w_mutate_feature w else z) z
      (w_rotate_tree w) (w_add_node w) (w_insert_node w) z z (w_randomize w) (w_do_nothing w) (if noc then z else w_optimize w)
  else mkWeights (fmul F (w_mutate_constant w) (fdiv F (of_nat k) (of_nat 8))) (w_mutate_operator w) (if one_feature then z else w_mutate_feature w)
      (if binary then w_swap_operands w else z) (w_rotate_tree w) (if full then z else w_add_node w) (if full then z else w_insert_node w) (w_delete_node w)
      (if simp then w_simplify w else z) (w_randomize w) (w_do_nothing w) (if opt then z else w_optimize w).
Lemma conditioned_all {T W} (F : FloatOps W) of_nat w (e : expr T) cx o cur nf : exists leaf noc one_feature binary full simp opt k, k <= 8
  /\ condition_mutation_weights F of_nat w e cx o cur nf = conditioned F of_nat w leaf noc one_feature binary full simp opt k.
Proof.
  exists (forallb is_leaf_node (nodes e)), (match consts e with [] => true | _ => false end), (nf <=? 1), (has_binary_op (nodes e)), (cur <=? cx), (should_simplify o),
    (negb (should_optimize_constants o) || feqb F (optimizer_probability o) (fzero F) || match consts e with [] => true | _ => false end), (Nat.min (count_constants (nodes e)) 8).
  split; [lia|reflexivity].
Qed.
Definition flags : list bool := [true; false].
Definition every {W} (P : weights W -> bool) (F : FloatOps W) (of_nat : nat -> W) (w : weights W) : bool :=
  forallb (fun k => forallb (fun b1 => forallb (fun b2 => forallb (fun b3 => forallb (fun b4 => forallb (fun b5 => forallb (fun b6 => forallb (fun b7 =>
    P (conditioned F of_nat w b1 b2 b3 b4 b5 b6 b7 k)) flags) flags) flags) flags) flags) flags) flags) (seq 0 9).
Lemma every_in {W} P (F : FloatOps W) of_nat w : every P F of_nat w = true -> forall b1 b2 b3 b4 b5 b6 b7 k, k <= 8 -> P (conditioned F of_nat w b1 b2 b3 b4 b5 b6 b7 k) = true.
Proof.
  intros H b1 b2 b3 b4 b5 b6 b7 k Hk. assert (Hb : forall (Q : bool -> bool) b, forallb Q flags = true -> Q b = true).
  { intros Q b HQ. rewrite forallb_forall in HQ. apply HQ. destruct b; cbn; tauto. }
  unfold every in H. rewrite forallb_forall in H. specialize (H k). rewrite in_seq in H. specialize (H ltac:(lia)). cbv beta in H.
  apply (Hb _ b1) in H. apply (Hb _ b2) in H. apply (Hb _ b3) in H. apply (Hb _ b4) in H. apply (Hb _ b5) in H. apply (Hb _ b6) in H. apply (Hb _ b7) in H. exact H.
Qed.

(** With the default weights a mutation can be drawn for every expression, complexity, limit and number of features. *)
Theorem C49_default_weights : forall (T : Type) (e : expr T) complexity o cur nf,
  drawable f64ops (map snd (choices (condition_mutation_weights f64ops f64_of_nat default_weights e complexity o cur nf))).
Proof.
  intros T e cx o cur nf. destruct (conditioned_all f64ops f64_of_nat default_weights e cx o cur nf) as (b1 & b2 & b3 & b4 & b5 & b6 & b7 & k & Hk & ->).
  apply drawableb_ok. apply (every_in (fun w => drawableb f64ops (map snd (choices w))) f64ops f64_of_nat default_weights); [vm_compute; reflexivity|exact Hk].
Qed.

(** options.rs:79-82: p is 0.982 in f32, widened to f64; n is 15. *)
Definition default_p : spec_float := f64lit 16475226 (-24).
Theorem C49_default_place :
  fleb f64ops default_p (fzero f64ops) = false /\ forall n, 2 <= n <= 15 -> drawable f64ops (geometric f64ops n default_p (fsub f64ops (fone f64ops) default_p)).
Proof.
  split; [reflexivity|]. intros n Hn. apply drawableb_ok.
  assert (H : forallb (fun n => drawableb f64ops (geometric f64ops n default_p (fsub f64ops (fone f64ops) default_p))) (seq 2 14) = true) by (vm_compute; reflexivity).
  rewrite forallb_forall in H. apply H. apply in_seq. lia.
Qed.

(** ** A configuration that meets every premise *)

(** A node sequence as a number: a prefix code. *)
Fixpoint ones (n : nat) (p : positive) : positive := match n with 0 => p | S n => xI (ones n p) end.
Definition unary (n : nat) (p : positive) : positive := ones n (xO p).
Definition code (n : pnode) (p : positive) : positive :=
  match n with Var f => unary 0 (unary f p) | Const i => unary 1 (unary i p) | Op a o => unary 2 (unary a (unary o p)) end.
Fixpoint encode (ns : list pnode) : positive := match ns with [] => xH | n :: ns => xO (code n (encode ns)) end.
Definition exact_hash (ns : list pnode) : N := Npos (encode ns).
Lemma unary_inj : forall n m p q, unary n p = unary m q -> n = m /\ p = q.
Proof. unfold unary. induction n as [|n IH]; intros [|m] p q H; cbn in H; try discriminate; injection H as H; auto. apply IH in H as [-> ->]. auto. Qed.
Lemma encode_inj : forall a b, encode a = encode b -> a = b.
Proof.
  induction a as [|x a IH]; intros [|y b] H; cbn [encode] in H; try discriminate; auto. injection H as H.
  destruct x, y; cbn [code] in H; apply unary_inj in H as [Hk H]; try discriminate; apply unary_inj in H as [-> H]; [..|apply unary_inj in H as [-> H]]; apply IH in H as ->; reflexivity.
Qed.
Lemma exact_hash_told_apart Seen ns : told_apart exact_hash Seen ns.
Proof. intros ns' _ H _. apply encode_inj. injection H. auto. Qed.

(** The search of C37 and C38 with this hash, every mutation possible, tournaments with p = 1/2 and the constant optimizer on. *)
Definition live_cfg : eval_cfg xq :=
  mkEvalCfg xqops xq_loss_ops (rational_ops xqops) exact_hash (u16_max + 1) 2 (mkSizeOpts 1 1 None [] 10 [] []) (make_loss xqops xq_loss_ops LMse) (XF (1 # 10)) true.
Definition all_weights (w : Q) : weights xq :=
  mkWeights (XF w) (XF w) (XF w) (XF w) (XF w) (XF w) (XF w) (XF w) (XF w) (XF w) (XF w) (XF w).
Definition evo_with (w : Q) (n : nat) (p x : Q) : evo_cfg xq :=
  mkEvo live_cfg (mkOptCfg xqops xq_opt_ops (fun x => Some x) (fun x => Some x) true 1 1 4 (XF (1 # 2)) default_bt)
    [[]; [(2, 0); (2, 5)]]
    (all_weights w)
    true (XF (1 # 2)) (fun _ _ _ v => v) (mkCfg (Some 0) (Some 5) (Some 7)) false (XF 1) false (fun x => x) (XF (1 # 1000000))
    (fun n => XF (inject_Z (Z.of_nat n))) (XF x) true (mkSel n (XF p) false (XF 0) 9) 20 [] 1.
Definition live_evo : evo_cfg xq := evo_with 1 2 (1 # 2) (1 # 10).
Definition search_with (E : evo_cfg xq) (populations size : nat) (batching : bool) (batch : nat) : search_cfg xq xq :=
  mkSearch E 2 populations size batching batch 1 true (XF (1 # 2)) true (XF (1 # 2)) (fun r _ => (1, r))
    (fun i => mkRng (fun n => n * 7 + 3 + i) (fun n => XF (Qmake (Z.of_nat (Nat.modulo (n + 2 + i) 5)) 7)))
    (mkRng (fun n => n) (fun _ => XF 0)) 100 xqops (fun n => XF (inject_Z (Z.of_nat n))) (fun _ => 0) (XF 0).
Definition live_search (batching : bool) (batch : nat) : search_cfg xq xq := search_with live_evo 2 2 batching batch.

Lemma live_evo_ok : evo_ok live_evo 1 9 9.
Proof.
  split.
  - split; [|split; [unfold u16_max; lia|cbn; unfold u8_max; lia]]. split; [reflexivity|]. intros [|[|[|a]]] op Ha Hin; cbn in Ha; try lia; cbn in Hin; try tauto.
    destruct Hin as [<-|[<-|[]]]; split; reflexivity.
  - constructor; cbn; try (unfold u16_max; lia); try discriminate.
  - intros [f|i|a op]; cbn; lia.
  - lia.
  - cbn. unfold u16_max. lia.
Qed.
Lemma live_search_live b k : b = false \/ k = 3 -> live (live_search b k) demo_data 9.
Proof.
  intros Hb. split.
  - split; [exact live_evo_ok|lia|]. apply demo_limit; reflexivity.
  - exact demo_data_ok.
  - destruct Hb as [->| ->]; [left|right]; reflexivity.
  - intros d Hd. apply (make_loss_total xqops xq_loss_ops LMse); auto.
  - cbn. lia.
  - cbn. lia.
  - cbn. lia.
  - cbv zeta. destruct (C49_place xqops xval xq_exact (XF (1 # 2)) eq_refl ltac:(reflexivity)) as [H|[H1 H2]]; [left; exact H|right]. split; [exact H1|]. intros n Hn. apply H2. lia.
  - intros e cx cur _ _. apply (C49_weights xqops xval xq_exact).
    + intros n. split; reflexivity.
    + intros []; split; cbn; auto; unfold Qle; cbn; lia.
    + left. cbn. unfold Qlt. cbn. lia.
  - intros [| |]; reflexivity.
  - apply (ol_irr _ xq_order_laws).
  - intros _. split; [cbn; lia|reflexivity].
  - intros rem. unfold get_cur_maxsize. cbn. discriminate.
Qed.

(** The premises hold of a search with every kind of mutation, drawn tournaments and constant optimization; here is what four steps of it, and two iterations in parallel
    with results out of order, end with. Batching with as many rows as the data meets them too. *)
Example C49_case : live (live_search false 1) demo_data 9 /\ live (live_search true 3) demo_data 9
  /\ (exists en0, engine_new (live_search false 1) demo_data = Ok en0 /\ exists x, outcome_of (steps (live_search false 1) en0 [1; 2; 9]) = Some ([1; 2; 1], 4, x)).
Proof.
  split; [apply live_search_live; auto|]. split; [apply live_search_live; auto|].
  assert (exists x, from_new (live_search false 1) demo_data [1; 2; 9] = Some ([1; 2; 1], 4, x)) as [x Hx] by (eexists; vm_compute; reflexivity).
  apply from_new_inv in Hx as (en0 & H1 & H2). eauto.
Qed.


(** The premises are needed: without each of them, the first step (or the creation) of the otherwise same search panics. *)
Definition first_step (S0 : search_cfg xq xq) : res nat := let! en := engine_new S0 demo_data in let! (en, ks) := steps S0 en [1] in Ok (List.length ks).

(** A batch of fewer rows than the data, or of more: pop_member.rs:93-103 evaluates into the evaluator's buffer, which is as long as the
    full data and is resized (pop_member.rs:58) only in single_iteration.rs:92,113, after the cycles; the evaluation asserts that the lengths agree. *)
Theorem C49_batching_refuted : first_step (live_search true 1) = Panic /\ first_step (live_search true 4) = Panic /\ first_step (live_search true 3) <> Panic.
Proof. repeat split; vm_compute; discriminate || reflexivity. Qed.

(** Weights all zero, or one negative; a tournament of size 0; p = 0. *)
Theorem C49_draws_refuted : first_step (search_with (evo_with 0 2 (1 # 2) (1 # 10)) 2 2 false 1) = Panic
  /\ first_step (search_with (evo_with (-1) 2 (1 # 2) (1 # 10)) 2 2 false 1) = Panic
  /\ first_step (search_with (evo_with 1 0 (1 # 2) (1 # 10)) 2 2 false 1) = Panic
  /\ first_step (search_with (evo_with 1 2 0 (1 # 10)) 2 2 false 1) = Panic.
Proof. repeat split; vm_compute; reflexivity. Qed.

(** No population; empty populations; populations of one member, of which a crossover replaces two. *)
Theorem C49_sizes_refuted : first_step (search_with live_evo 0 2 false 1) = Panic /\ first_step (search_with live_evo 2 0 false 1) = Panic
  /\ first_step (search_with (evo_with 1 2 (1 # 2) 1) 2 1 false 1) = Panic.
Proof. repeat split; vm_compute; reflexivity. Qed.

Print Assumptions C49_engine.
Print Assumptions C49_parallel.
Print Assumptions C49_weights.
Print Assumptions C49_place.
Print Assumptions C49_default_weights.
Print Assumptions C49_default_place.
Print Assumptions C49_batching_refuted.
