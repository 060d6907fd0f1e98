(** Property C65: a child differs from its parents by one variation of an enabled kind; what a search can reach. *)
From Verif Require Import Base BaseLemmas Node Tree NodeProofs SpanProofs Compile Eval Deriv Utils UtilsProofs PropUtils Simplify PropSimplify Rng Registry PropRegistry
  Lit Mutation MutationProofs PropMutation Complexity ComplexitySpec ComplexityProofs PropComplexity Num Member PropHof Selection SelectionProofs PropSelection
  Conditioning PropConditioning Dataset Loss PropLoss Optim PropOptim ConstOpt PropConstOpt Evolution Frames PropEvolution Instances.
Local Open Scope nat_scope.

(** ** Specification *)
(** [x'] is [x] with some occurrences of the constant [v] replaced by [w]. *)
Inductive replaced {T} (v w : T) : xtree T -> xtree T -> Prop :=
| RVar f : replaced v w (XVar f) (XVar f)
| RSame c : replaced v w (XConst c) (XConst c)
| RNew : replaced v w (XConst v) (XConst w)
| ROp op cs cs' : Forall2 (replaced v w) cs cs' -> replaced v w (XOp op cs) (XOp op cs').
(** The same formula but for the values of its constants. *)
Inductive alike {T} : xtree T -> xtree T -> Prop :=
| AVar f : alike (XVar f) (XVar f)
| AConst c c' : alike (XConst c) (XConst c')
| AOp op cs cs' : Forall2 alike cs cs' -> alike (XOp op cs) (XOp op cs').

(** What each kind of variation may do to a formula. *)
Definition varies {T} (E : evo_cfg T) (cur : nat) (temperature : T) (c : choice) (x x' : xtree T) : Prop :=
  match c with
  | MutateConstant => exists v exponent bigger neg, has_subtree (fun s => s = XConst v) x
                        /\ let w := fmul (ec_F (eo_C E)) v (eo_factor E temperature exponent bigger neg) in
                           replaced v w x x' /\ has_subtree (fun s => s = XConst w) x'
  | MutateOperator => one_change (fun s s' => exists op op' cs, s = XOp op cs /\ s' = XOp op' cs /\ registered (eo_reg E) (List.length cs) op') x x'
  | MutateFeature => one_change (fun s s' => exists f f', s = XVar f /\ s' = XVar f' /\ f' <> f) x x'
  | SwapOperands => one_change (fun s s' => exists op a b, s = XOp op [a; b] /\ s' = XOp op [b; a]) x x'
  | RotateTree => one_change (fun s s' => exists r p l1 r1 l2 c r2,
                    s = XOp r (l1 ++ XOp p (l2 ++ c :: r2) :: r1) /\ s' = XOp p (l2 ++ XOp r (l1 ++ c :: r1) :: r2)) x x'
  | AddNode => one_change (grows (eo_reg E)) x x' \/ wraps (eo_reg E) x x'
  | InsertNode => one_change (wraps (eo_reg E)) x x'
  | DeleteNode => one_change (fun s s' => exists op l r, s = XOp op (l ++ s' :: r)) x x'
  | Simplify => xsize x' <= xsize x
  | Randomize => 1 <= xsize x' <= Nat.max 1 (Nat.min cur (sel_maxsize (eo_sel E)))
  | DoNothing => x' = x
  | Optimize => alike x x'
  end.

(** When a kind has nothing to do on a formula. *)
Definition inapplicable {T} (E : evo_cfg T) (nf : nat) (c : choice) (x : xtree T) : Prop :=
  match c with
  | MutateConstant => ~ has_subtree (fun s => exists v, s = XConst v) x
  | MutateOperator => ~ has_subtree (fun s => exists op cs, s = XOp op cs) x
  | MutateFeature => nf <= 1 \/ ~ has_subtree (fun s => exists f, s = XVar f) x
  | SwapOperands => ~ has_subtree (fun s => exists op a b, s = XOp op [a; b]) x
  | RotateTree => ~ has_subtree (fun s => exists r p l1 r1 cs, s = XOp r (l1 ++ XOp p cs :: r1)) x
  | AddNode | InsertNode => forall a op, 1 <= a <= ec_D (eo_C E) -> ~ registered (eo_reg E) a op
  | DeleteNode => xleaf x
  | _ => False
  end.

(** The weights used for a member: the configured ones, conditioned on the member. *)
Definition weights_for {T} (E : evo_cfg T) (nf cur : nat) (m : member T) : weights T :=
  condition_mutation_weights (ec_F (eo_C E)) (eo_of_nat E) (eo_weights E) (m_expr m) (m_complexity m)
    (mkCond (eo_simplify E) (oc_enabled (eo_opt E)) (eo_opt_prob E)) cur nf.
(** A kind may be drawn if its weight is not zero or negative; [Optimize], the last, also through rounding (C43). *)
Definition enabled {T} (E : evo_cfg T) (nf cur : nat) (m : member T) (c : choice) : Prop :=
  c = Optimize \/ fleb (ec_F (eo_C E)) (weight_of c (weights_for E nf cur m)) (fzero (ec_F (eo_C E))) = false.

(** ** Proof *)
Lemma replaced_lit {T} (c c' : nat -> T) i v w : c i = v -> c' i = w -> (forall j, j <> i -> c' j = c j) -> forall t, replaced v w (lit c t) (lit c' t).
Proof.
  intros Hv Hw Ho. induction t as [f|j|op cs IH] using tree_ind'; cbn [lit]; [constructor| |constructor].
  - destruct (Nat.eq_dec j i) as [->|Hj]; [rewrite Hv, Hw; constructor|rewrite (Ho j Hj); constructor].
  - induction IH; cbn; constructor; auto.
Qed.
Lemma alike_lit {T} (c c' : nat -> T) : forall t, alike (lit c t) (lit c' t).
Proof. induction t as [f|j|op cs IH] using tree_ind'; cbn [lit]; constructor. induction IH; cbn; constructor; auto. Qed.
Lemma xsize_pos {T} (x : xtree T) : 1 <= xsize x.
Proof. destruct x; cbn; lia. Qed.
Lemma denotes_eq {T} (F : FloatOps T) e (x y : xtree T) : denotes F e x -> denotes F e y -> x = y.
Proof.
  intros (t & Ht & _ & ->) (u & Hu & _ & ->). unfold represents in *. rewrite Ht in Hu. apply flatten_inj in Hu. congruence.
Qed.

Lemma compress_same {T} (F : FloatOps T) (e e' : expr T) b x : denotes F e x -> compress_constants e = Ok (e', b) -> denotes F e' x.
Proof.
  intros (t & Hr & Hc & ->) He. destruct (proj1 (C10_compress_total_iff T e)) as [_ Hl]; [eauto|].
  assert (Hids : forall i, In i (const_ids (nodes e)) -> i < List.length (consts e)) by (intros i Hi; apply Hc; now apply const_ids_in).
  destruct (compress_spec (fzero F) e Hids Hl) as (b1 & Eb & _). rewrite Eb in He. injection He as <- _.
  set (u := first_uses (nodes e)) in *.
  assert (Hlen : List.length (consts (compressed (fzero F) e)) = List.length u) by (cbn; unfold gather; now rewrite map_length).
  assert (Hin : forall i, In (Const i) (flatten t) -> In i u).
  { intros i Hi. apply first_uses_from_in. right. apply const_ids_in. unfold represents in Hr. now rewrite Hr. }
  exists (rename_tree (fun i => pos i u) t). split; [|split].
  - unfold represents in *. cbn [compressed nodes]. fold u. rewrite flatten_rename, Hr. apply map_ext. intros n. apply rename_node_pnode.
  - intros i Hi. rewrite Hlen. cbn [compressed nodes] in Hi. apply in_map_iff in Hi as (n & En & Hn). fold u in En.
    destruct n as [f|j|a o]; cbn in En; try discriminate. injection En as <-. apply pos_lt. apply Hin. unfold represents in Hr. now rewrite <- Hr.
  - rewrite lit_rename. apply lit_ext. intros i Hi. apply const_ids_in in Hi. specialize (Hin i Hi).
    unfold const_at. cbn [compressed consts]. fold u. unfold gather. symmetry. apply nth_error_nth.
    rewrite nth_error_map, (pos_nth i u Hin). reflexivity.
Qed.

Section Vary.
Context {T : Type} (E : evo_cfg T) (nf B cur : nat) (bl : option T) (H : evo_ok E nf B cur).
Local Notation C := (eo_C E).
Local Notation F := (ec_F (eo_C E)).
Local Notation D := (ec_D (eo_C E)).
Local Notation known := (reg_known (eo_reg E)).
Local Notation wf := (wf_expr E nf B).

(** One attempt: nothing to do, or a variation of the parent's formula. *)
Lemma apply_varies c g ev m d temp e b k imm g' ev' x : wf (m_expr m) -> ds_n_features d = nf -> denotes F (m_expr m) x ->
  apply E c g ev m (m_expr m) d bl temp cur = Ok ((e, b, k, imm), g', ev') ->
  if b then exists x', denotes F e x' /\ x_ok D nf known x' /\ varies E cur temp c x x'
  else c = MutateFeature \/ inapplicable E nf c x.
Proof.
  intros Hwf Hnf Hdx Ha. pose proof Hwf as (t & Hr & Ht & Hn & Hc). destruct (wf_denotes E nf B (m_expr m) Hwf) as (x0 & Hd & Hx). pose proof (denotes_eq _ _ _ _ Hdx Hd). subst x0. clear Hdx.
  pose proof (reg_known_setting _ _ _ _ (ok_setting _ _ _ _ H)) as Hs. pose proof Hs as (Hreg & Hnf' & HD). pose proof (ok_small _ _ _ _ H) as Hsm.
  unfold apply in Ha. rewrite Hnf in Ha.
  assert (Hin : forall r P N, mutates F D nf known r (m_expr m) P N -> in_place ev r = Ok ((e, b, k, imm), g', ev') ->
    exists x', denotes F e x' /\ x_ok D nf known x' /\ if b then P e x' else N).
  { intros r P N (b1 & e1 & g1 & x1 & Er & Hd1 & Hx1 & _ & HP) Hi. unfold in_place in Hi. rewrite Er in Hi. cbn [bind] in Hi. injection Hi as <- <- _ _ _ _. exists x1. split; auto. split; auto. destruct b1; tauto. }
  destruct c; cbn [varies inapplicable].
  - edestruct Hin as (x' & D1 & X1 & K); [|exact Ha|]; [eapply C19_mutate_constant; eauto|]. cbn beta in K. destruct b; [|auto]. exists x'. split; auto. split; auto.
    destruct K as (En & ci & v & ex & bi & ne & Hci & Hv & Ec). exists v, ex, bi, ne.
    destruct Hd as (t1 & R1 & I1 & ->). destruct D1 as (t2 & R2 & I2 & ->). unfold represents in *. rewrite En, R1 in R2. apply flatten_inj in R2. subst t2.
    assert (Hat : const_at F (consts (m_expr m)) ci = v) by (unfold const_at; apply nth_error_nth; exact Hv).
    assert (Hcl : ci < List.length (consts (m_expr m))) by (apply nth_error_Some; congruence).
    assert (Hat' : const_at F (consts e) ci = fmul F v (eo_factor E temp ex bi ne)) by (unfold const_at; rewrite Ec; apply nth_error_nth; apply nth_error_upd_same; exact Hcl).
    assert (Hsub : forall cst : nat -> T, has_subtree (fun s => s = XConst (cst ci)) (lit cst t1)).
    { intros cst. rewrite R1 in Hci. apply In_nth_error in Hci as (j & Hj). destruct (node_ctx _ _ _ Hj) as (Cx & s & Et & _ & Hroot & _). destruct s as [f|i|op cs]; cbn in Hroot; try discriminate. injection Hroot as ->.
      exists (map_ctx (lit cst) Cx), (lit cst (TConst ci)). rewrite Et, lit_plug. split; reflexivity. }
    split; [rewrite <- Hat; apply Hsub|]. cbv zeta. split; [|rewrite <- Hat'; apply Hsub].
    apply (replaced_lit _ _ ci); auto.
    + intros j Hj. unfold const_at. rewrite Ec. destruct (nth_error (consts (m_expr m)) j) as [u|] eqn:Eu.
        -- rewrite (nth_error_nth _ _ _ Eu). apply nth_error_nth. rewrite nth_error_upd_other; auto.
        -- apply nth_error_None in Eu. rewrite !nth_overflow; auto. rewrite upd_length. auto.
  - edestruct Hin as (x' & D1 & X1 & K); [|exact Ha|]; [eapply C19_mutate_operator; eauto|]. cbn beta in K. destruct b; [exists x'; tauto|]. right. destruct K as [K|K]; auto.
    exfalso. destruct K as (Cx & s & Ex & op & cs & -> & K). rewrite Ex in Hx. apply x_ok_plug in Hx as [Hx _]. cbn [x_ok] in Hx. destruct Hx as (_ & Hk & _). apply reg_known_spec in Hk. exact (K op Hk).
  - edestruct Hin as (x' & D1 & X1 & K); [|exact Ha|]; [eapply C19_mutate_feature; eauto; apply Hnf'|]. cbn beta in K. destruct b; [exists x'; tauto|]. auto.
  - edestruct Hin as (x' & D1 & X1 & K); [|exact Ha|]; [eapply C21_swap; eauto|]. cbn beta in K. destruct b; [exists x'; tauto|]. auto.
  - edestruct Hin as (x' & D1 & X1 & K); [|exact Ha|]; [eapply C21_rotate; eauto|]. cbn beta in K. destruct b; [exists x'; tauto|]. auto.
  - edestruct Hin as (x' & D1 & X1 & K); [|exact Ha|]; [eapply C19_add; eauto; lia|]. cbn beta in K. destruct b; [exists x'; tauto|]. auto.
  - edestruct Hin as (x' & D1 & X1 & K); [|exact Ha|]; [eapply C19_insert; eauto; lia|]. cbn beta in K. destruct b; [exists x'; tauto|]. auto.
  - edestruct Hin as (x' & D1 & X1 & K); [|exact Ha|]; [eapply C19_delete; eauto; lia|]. cbn beta in K. destruct b; [exists x'; tauto|]. auto.
  - apply bind_ok in Ha as ([e1 ch] & Es & Ha). injection Ha as <- <- _ _ _ _.
    assert (Ht' : tree_ok D nf (List.length (consts (m_expr m))) (oknown (ec_O C)) t).
    { eapply tree_ok_ops; [exact Ht|]. intros a op Hao Hi. eapply reg_known_known; [apply H|auto|]. eapply tree_ok_known; eauto. }
    destruct (C15_simplify_well_formed T F (ec_O C) D nf (eo_ccfg E) ev_opts (m_expr m) t Hr Ht') as (e2 & ch2 & t2 & E2 & R2 & T2 & Hle & Ho & _).
    { unfold represents in Hr. rewrite <- flatten_length, <- Hr. lia. }
    rewrite E2 in Es. injection Es as -> ->.
    assert (Hk : tree_ok D nf (List.length (consts e1)) known t2).
    { eapply tree_ok_ops; [exact T2|]. intros a op Hao Hi. unfold represents in R2. rewrite <- R2 in Hi. apply Ho in Hi. rewrite Hr in Hi. eapply tree_ok_known; eauto. }
    destruct (proj1 (expr_ok_denotes F D nf known e1)) as (x' & D1 & X1); [exists t2; auto|]. exists x'. split; auto. split; auto.
    destruct Hd as (t3 & R3 & _ & ->). destruct D1 as (t4 & R4 & _ & ->). rewrite !xsize_lit, <- !flatten_length. unfold represents in *. rewrite <- R3, <- R4. exact Hle.
  - apply bind_ok in Ha as ([target g1] & Eu & Ha). apply bind_ok in Ha as ([e1 g2] & Er & Ha). injection Ha as <- <- _ _ _ _.
    set (ms := Nat.min (Nat.max cur 1) (Nat.max (sel_maxsize (eo_sel E)) 1)) in Eu.
    assert (Hms : 1 <= ms <= Nat.max cur 1) by (unfold ms; lia).
    destruct (usize_range_inclusive_ok g 1 ms) as (q & g3 & Ek & Hk); [lia|]. rewrite Ek in Eu. injection Eu as <- <-.
    pose proof (ok_cur _ _ _ _ H). assert (1 <= u16_max) by (unfold u16_max; lia).
    destruct (C18_random_expr T F D nf known (eo_reg E) q g3 Hs) as (e2 & g4 & x2 & E2 & D2 & X2 & Hsz & _); [lia|].
    rewrite E2 in Er. injection Er as -> _. exists x2. split; auto. split; auto. pose proof (xsize_pos x2). unfold ms in Hk. lia.
  - injection Ha as <- <- _ _ _ _. exists x. auto.
  - apply bind_ok in Ha as (tmp & _ & Ha). apply bind_ok in Ha as ([[[[[[g1 m1] ev1] gc1] nb1] imp] kk] & Eo & Ha). injection Ha as <- <- _ _ _ _.
    apply optimize_frame in Eo as (_ & _ & _ & En & _ & Ec & _). cbn [m_expr] in *.
    destruct (proj1 (expr_ok_denotes F D nf known (m_expr m1))) as (x' & D1 & X1).
    { exists t. unfold represents. rewrite En, Ec. auto. }
    exists x'. split; auto. split; auto. destruct Hd as (t3 & R3 & _ & ->). destruct D1 as (t4 & R4 & _ & ->). unfold represents in *. rewrite En, R3 in R4. apply flatten_inj in R4. subst t4. apply alike_lit.
Qed.

Lemma attempts_varies c m d temp x : wf (m_expr m) -> ds_n_features d = nf -> denotes F (m_expr m) x -> forall n g ev evals found k g' ev', 
  attempts E n c g ev m d bl temp cur evals = Ok (found, k, g', ev') ->
  match found with
  | Some (tree, _) => exists x', denotes F tree x' /\ varies E cur temp c x x'
  | None => 1 <= n -> c = MutateFeature \/ inapplicable E nf c x \/ exists e' x', denotes F e' x' /\ varies E cur temp c x x' /\ ~ within E cur e'
  end.
Proof.
  intros Hwf Hnf Hd. induction n as [|n IH]; intros g ev evals found k g' ev' Ha; cbn [attempts] in Ha.
  { injection Ha as <- _ _ _. intros Hn. lia. }
  apply bind_ok in Ha as ([[[[[e b] k1] imm] g1] ev1] & Hap & Ha). pose proof (apply_varies _ _ _ _ _ _ _ _ _ _ _ _ _ Hwf Hnf Hd Hap) as Hv.
  destruct b; cbn [negb] in Ha.
  - apply bind_ok in Ha as ([tr ch] & Hc & Ha). apply bind_ok in Ha as (ok & Hk & Ha). destruct Hv as (x' & D1 & X1 & V1).
    assert (Ho : expr_ok D nf known e) by (apply (expr_ok_denotes F); eauto).
    destruct (compress_wf E nf e tr ch Ho Hc) as (t' & R' & T' & _).
    pose proof (compress_same F e tr ch x' D1 Hc) as Dt.
    destruct ok.
    + injection Ha as <- _ _ _. eauto.
    + apply IH in Ha. destruct found as [[tree im]|]; [exact Ha|]. intros _. right. right. exists tr, x'. split; auto. split; auto.
      intros (t & Rt & Ft). unfold represents in *. rewrite R' in Rt. apply flatten_inj in Rt. subst t. apply (check_spec E nf B cur H tr t' false R' T' Hk) in Ft. discriminate.
  - apply IH in Ha. destruct found as [[tree im]|]; [exact Ha|]. intros _. destruct Hv; auto.
Qed.
End Vary.

Lemma sampled_enabled {T} (E : evo_cfg T) nf cur m g c g' :
  sample_mutation (ec_F (eo_C E)) g (weights_for E nf cur m) = Ok (c, g') -> enabled E nf cur m c.
Proof.
  unfold sample_mutation. intros Hs. apply bind_ok in Hs as ([i g1] & Hw & Hs). apply bind_ok in Hs as ([c1 w1] & Hi & Hs). injection Hs as <- _. cbn [fst].
  set (w := weights_for E nf cur m) in *.
  apply C29_in_range in Hw as (v & Hv & Hor). rewrite nth_error_map in Hv. unfold index in Hi. destruct (nth_error (choices w) i) as [[c2 w2]|] eqn:En; [|discriminate].
  cbn in Hi, Hv. injection Hi as -> ->. injection Hv as ->. unfold enabled. fold w. destruct Hor as [Hl|Hl].
  - left. rewrite map_length in Hl. unfold choices in En, Hl. cbn [List.length] in Hl. injection Hl as ->. cbn in En. congruence.
  - right. rewrite <- Hl. f_equal. assert (Hin : In (c1, v) (choices w)) by (eapply nth_error_In; eauto). unfold choices in Hin. cbn in Hin.
    repeat (destruct Hin as [Hin|Hin]; [injection Hin as <- <-; reflexivity|]). destruct Hin.
Qed.

(** ** Theorems *)
(** A kind of variation is drawn among those with weight. The child of an accepted mutation is one variation of that kind of its parent's formula; the child
    of a rejected one has its parent's formula. *)
Definition child_of {T} (E : evo_cfg T) (nf cur : nat) (temperature : T) (m baby : member T) (accepted : bool) : Prop :=
  exists c x x', enabled E nf cur m c /\ denotes (ec_F (eo_C E)) (m_expr m) x /\ denotes (ec_F (eo_C E)) (m_expr baby) x'
    /\ if accepted then varies E cur temperature c x x' else x' = x.
Theorem C65_child : forall (T : Type) (E : evo_cfg T) nf B cur bl (s : evo_st T) m d temperature st baby accepted evals s',
  evo_ok E nf B cur -> sound E nf B bl m -> ds_n_features d = nf ->
  next_generation E s m d bl temperature cur st = Ok (baby, accepted, evals, s') ->
  child_of E nf cur temperature m baby accepted.
Proof.
  intros T E nf B cur bl s m d temp st baby acc k s' H Hm Hnf Hng.
  pose proof (next_generation_spec E nf B cur bl H s m d temp st baby acc k s' Hm Hnf Hng) as (_ & _ & _ & _ & _ & _ & Hcase).
  unfold next_generation in Hng. rewrite Hnf in Hng. cbv zeta in Hng. fold (weights_for E nf cur m) in Hng.
  apply bind_ok in Hng as ([c g] & Hs & Hng). apply bind_ok in Hng as ([[[found evals] g1] ev1] & Ha & Hng).
  destruct (wf_denotes E nf B (m_expr m) (so_expr _ _ _ _ _ Hm)) as (x & Hd & Hx).
  pose proof (attempts_varies E nf B cur bl H c m d temp x (so_expr _ _ _ _ _ Hm) Hnf Hd _ _ _ _ _ _ _ _ Ha) as Hv.
  apply sampled_enabled in Hs. destruct acc.
  2:{ exists c, x, x. destruct Hcase as (He & _). rewrite He. auto. }
  destruct found as [[tree imm]|].
  2:{ apply bind_ok in Hng as (rj & Hr & Hng). discriminate. }
  destruct Hv as (x' & D1 & V1). exists c, x, x'. split; auto. split; auto. split; [|exact V1]. destruct imm.
  - apply bind_ok in Hng as (b1 & Hb1 & Hng). apply bind_ok in Hng as (b2 & Hb2 & Hng). apply bind_ok in Hng as (cx & Hcx & Hng).
    injection Hng as <- _ _. pose proof (from_expr_frame _ _ _ _ _ _ _ Hb1) as (I1 & I2 & I3 & I4 & I5).
    unfold rebuild_plan in Hb2. apply bind_ok in Hb2 as (p & Hp & Hb2). injection Hb2 as <-. cbn. rewrite I4. exact D1.
  - apply bind_ok in Hng as (b1 & Hb1 & Hng). pose proof (from_expr_frame _ _ _ _ _ _ _ Hb1) as (I1 & I2 & I3 & I4 & I5).
    apply bind_ok in Hng as ([[b2 ev2] ok] & He & Hng).
    pose proof (attempts_spec E nf B cur bl H c m d temp (so_expr _ _ _ _ _ Hm) Hnf _ _ _ _ _ _ _ _ _ Ha) as [Hwf _].
    apply (evaluate_sound E nf B cur bl H) in He as (_ & _ & _ & _ & J4 & _); [|rewrite I4; auto|unfold plan_fresh; rewrite I4; exact I5].
    destruct (negb ok || _).
    + apply bind_ok in Hng as (rj & Hr & Hng). discriminate.
    + apply bind_ok in Hng as (prob & _ & Hng). destruct (rng_real g1) as [u g2]. destruct (fltb _ prob u).
      * apply bind_ok in Hng as (rj & Hr & Hng). discriminate.
      * injection Hng as <- _ _. rewrite J4, I4. exact D1.
Qed.

(** Ten attempts find no candidate only if the kind has nothing to do on the parent's formula, or a variation of that kind violates the constraints (or if a
    variable drew its own feature each time). *)
Theorem C65_no_candidate : forall (T : Type) (E : evo_cfg T) nf B cur bl m d temperature c x g ev evals g' ev',
  evo_ok E nf B cur -> sound E nf B bl m -> ds_n_features d = nf -> denotes (ec_F (eo_C E)) (m_expr m) x ->
  attempts E 10 c g ev m d bl temperature cur 0 = Ok (None, evals, g', ev') ->
  c = MutateFeature \/ inapplicable E nf c x
  \/ exists e' x', denotes (ec_F (eo_C E)) e' x' /\ varies E cur temperature c x x' /\ ~ within E cur e'.
Proof.
  intros T E nf B cur bl m d temp c x g ev evals g' ev' H Hm Hnf Hd Ha.
  apply (attempts_varies E nf B cur bl H c m d temp x (so_expr _ _ _ _ _ Hm) Hnf Hd _ _ _ _ _ _ _ _ Ha). lia.
Qed.

(** The children of an accepted crossover are the parents with one subtree exchanged; those of a failed one are the parents. *)
Definition children_of {T} (E : evo_cfg T) (m1 m2 b1 b2 : member T) (accepted : bool) : Prop :=
  if accepted then exists C1 s1 C2 s2, denotes (ec_F (eo_C E)) (m_expr m1) (xplug C1 s1) /\ denotes (ec_F (eo_C E)) (m_expr m2) (xplug C2 s2)
    /\ denotes (ec_F (eo_C E)) (m_expr b1) (xplug C1 s2) /\ denotes (ec_F (eo_C E)) (m_expr b2) (xplug C2 s1)
  else b1 = m1 /\ b2 = m2.
Theorem C65_children : forall (T : Type) (E : evo_cfg T) nf B cur bl (s : evo_st T) m1 m2 d b1 b2 accepted evals s',
  evo_ok E nf B cur -> sound E nf B bl m1 -> sound E nf B bl m2 -> ds_n_features d = nf ->
  crossover_generation E s m1 m2 d bl cur = Ok (b1, b2, accepted, evals, s') ->
  children_of E m1 m2 b1 b2 accepted.
Proof.
  intros T E nf B cur bl s m1 m2 d b1 b2 acc k s' H H1 H2 Hnf. unfold crossover_generation. generalize 10 as n. intros n. revert s b1 b2 acc k s'.
  induction n as [|n IH]; intros s b1 b2 acc k s' Hc; cbn [crossover_loop] in Hc.
  - injection Hc as <- <- <- _ _. cbn. auto.
  - apply bind_ok in Hc as ([[c1 c2] g] & Hx & Hc). apply bind_ok in Hc as (ok1 & Hk1 & Hc). apply bind_ok in Hc as (ok & Hk & Hc).
    destruct ok; [|eapply IH; eauto]. destruct ok1; [|discriminate].
    destruct (wf_denotes E nf B _ (so_expr _ _ _ _ _ H1)) as (x1 & Hd1 & Hx1). destruct (wf_denotes E nf B _ (so_expr _ _ _ _ _ H2)) as (x2 & Hd2 & Hx2).
    pose proof (ok_small _ _ _ _ H) as Hsm.
    destruct (C20_crossover T (ec_F (eo_C E)) _ nf _ (es_rng s) (m_expr m1) (m_expr m2) x1 x2 Hd1 Hd2 Hx1 Hx2) as (a' & b' & g' & Ca & sa & Cb & sb & Ex & E1 & E2 & Da & Db & Xa & Xb & _ & _ & _ & La & Lb).
    { destruct H1 as [(? & _ & _ & _ & L1) _ _ _]. destruct H2 as [(? & _ & _ & _ & L2) _ _ _]. lia. }
    rewrite Ex in Hx. injection Hx as -> -> _. cbv zeta in Hc. rewrite Hnf in Hc.
    apply bind_ok in Hc as (y1 & Hy1 & Hc). apply bind_ok in Hc as (y2 & Hy2 & Hc). apply bind_ok in Hc as ([[z1 ev1] o1] & Hz1 & Hc).
    apply bind_ok in Hc as ([[z2 ev2] o2] & Hz2 & Hc). injection Hc as <- <- <- _ _.
    apply from_expr_frame in Hy1 as (I1 & I2 & I3 & I4 & I5). apply from_expr_frame in Hy2 as (J1 & J2 & J3 & J4 & J5).
    apply evaluate_frame in Hz1 as (? & ? & ? & -> & _). apply evaluate_frame in Hz2 as (? & ? & ? & -> & _).
    cbn. exists Ca, sa, Cb, sb. rewrite I4, J4, <- E1, <- E2. auto.
Qed.

(** One step: mutation of a member if the random number exceeds the crossover probability, crossover of two members otherwise. A failure changes nothing if
    failures are skipped; otherwise the children replace the oldest (C26). *)
Theorem C65_step : forall (T : Type) (E : evo_cfg T) nf B cur bl pop (s : evo_st T) d temperature st pop' s' evals,
  evo_ok E nf B cur -> Forall (sound E nf B bl) pop -> ds_n_features d = nf ->
  evol_step E pop s d bl temperature cur st = Ok (pop', s', evals) ->
  let u := rg_real (es_rng s) 0 in
  (fltb (ec_F (eo_C E)) (eo_crossover_prob E) u = true ->
     exists m baby accepted, In m pop /\ child_of E nf cur temperature m baby accepted
       /\ if negb accepted && eo_skip_failures E then pop' = pop else replace_oldest pop baby = Ok pop')
  /\ (fltb (ec_F (eo_C E)) (eo_crossover_prob E) u = false ->
     exists m1 m2 b1 b2 accepted, In m1 pop /\ In m2 pop /\ children_of E m1 m2 b1 b2 accepted
       /\ if negb accepted && eo_skip_failures E then pop' = pop else replace_two_oldest pop b1 b2 = Ok pop').
Proof.
  intros T E nf B cur bl pop s d temp st pop' s' k H Hp Hnf Hs u. unfold evol_step in Hs. cbn [rng_real] in Hs. fold u in Hs. unfold fgtb in Hs. rewrite Forall_forall in Hp.
  destruct (fltb (ec_F (eo_C E)) (eo_crossover_prob E) u); (split; [|]); try discriminate; intros _.
  - apply bind_ok in Hs as ([a g1] & Ht & Hs). apply tournament_in in Ht. apply bind_ok in Hs as ([[[b acc] k1] s1] & Hn & Hs).
    exists a, b, acc. split; auto. split; [eapply C65_child; eauto|]. destruct (negb acc && eo_skip_failures E); [injection Hs as <- _ _; reflexivity|].
    apply bind_ok in Hs as (p1 & Hr & Hs). injection Hs as <- _ _. exact Hr.
  - apply bind_ok in Hs as ([a1 g1] & Ht1 & Hs). apply tournament_in in Ht1. apply bind_ok in Hs as ([a2 g2] & Ht2 & Hs). apply tournament_in in Ht2.
    apply bind_ok in Hs as ([[[[b1 b2] acc] k1] s1] & Hn & Hs). exists a1, a2, b1, b2, acc. split; auto. split; auto. split; [eapply C65_children; eauto|].
    destruct (negb acc && eo_skip_failures E); [injection Hs as <- _ _; reflexivity|].
    apply bind_ok in Hs as (p1 & Hr & Hs). injection Hs as <- _ _. exact Hr.
Qed.

(** The formulas that can be reached from given ones by variations of enabled kinds and exchange of subtrees. *)
Inductive reachable {T} (E : evo_cfg T) (nf cur : nat) (start : xtree T -> Prop) : xtree T -> Prop :=
| ReachStart x : start x -> reachable E nf cur start x
| ReachVary m c temperature x x' : reachable E nf cur start x -> denotes (ec_F (eo_C E)) (m_expr m) x -> enabled E nf cur m c ->
    varies E cur temperature c x x' -> reachable E nf cur start x'
| ReachCross C1 s1 C2 s2 : reachable E nf cur start (xplug C1 s1) -> reachable E nf cur start (xplug C2 s2) -> reachable E nf cur start (xplug C1 s2).

(** Every member of a population after an iteration, and every member of the iteration's hall of fame, has a formula reachable from the formulas the
    population had before. *)
Theorem C65_reachable : forall (T : Type) (E : evo_cfg T) nf B cur bl pop (s : evo_st T) d st pop' s' best evals,
  evo_ok E nf B cur -> Forall (sound E nf B bl) pop -> ds_n_features d = nf ->
  s_r_cycle E pop s d bl cur st = Ok (pop', s', best, evals) ->
  let F := ec_F (eo_C E) in
  forall m', (In m' pop' \/ In (Some m') best) ->
  exists x, denotes F (m_expr m') x /\ reachable E nf cur (fun x0 => exists m, In m pop /\ denotes F (m_expr m) x0) x.
Proof.
  intros T E nf B cur bl pop s d st pop' s' best k H Hp Hnf Hs F.
  set (start := fun x0 => exists m, In m pop /\ denotes F (m_expr m) x0).
  set (R := fun m' : member T => sound E nf B bl m' /\ exists x, denotes F (m_expr m') x /\ reachable E nf cur start x).
  assert (Hstep : forall p s temp p' s' k, Forall R p -> evol_step E p s d bl temp cur st = Ok (p', s', k) -> Forall R p').
  { clear Hs s s' k pop'. intros p s temp p' s' k HR Hs. assert (Hsp : Forall (sound E nf B bl) p) by (eapply Forall_impl; [|exact HR]; intros a [Ha _]; exact Ha).
    pose proof (evol_step_spec E nf B cur bl H p s d temp st p' s' k Hsp Hnf Hs) as Hnew. pose proof (each_new_sound E nf B cur bl p p p' Hsp Hnew) as Hso.
    destruct (C65_step T E nf B cur bl p s d temp st p' s' k H Hsp Hnf Hs) as [Hmut Hcr]. rewrite Forall_forall in HR, Hso |- *.
    assert (Hre : forall m, In m p -> exists x, denotes F (m_expr m) x /\ reachable E nf cur start x) by (intros m Hm; apply (HR m Hm)).
    destruct (fltb (ec_F (eo_C E)) (eo_crossover_prob E) (rg_real (es_rng s) 0)).
    - destruct (Hmut eq_refl) as (m & b & acc & Hm & (c & x & x' & He & Hd & Hd' & Hv) & Hr). destruct (Hre m Hm) as (y & Hy & Ry). pose proof (denotes_eq _ _ _ _ Hd Hy). subst y.
      assert (Rb : exists z, denotes F (m_expr b) z /\ reachable E nf cur start z).
      { exists x'. split; auto. destruct acc; [|subst; auto]. eapply ReachVary; eauto. }
      destruct (negb acc && eo_skip_failures E); [subst; auto|]. apply (replace_oldest_new (fun z => z = b)) in Hr as [_ Hr]; auto.
      intros a Ha. split; [auto|]. destruct (Hr a Ha) as [Ha'| ->]; auto.
    - destruct (Hcr eq_refl) as (m1 & m2 & b1 & b2 & acc & Hm1 & Hm2 & Hc & Hr). destruct (Hre m1 Hm1) as (y1 & Hy1 & R1). destruct (Hre m2 Hm2) as (y2 & Hy2 & R2).
      assert (Rb : (exists z, denotes F (m_expr b1) z /\ reachable E nf cur start z) /\ exists z, denotes F (m_expr b2) z /\ reachable E nf cur start z).
      { destruct acc; cbn in Hc; [|destruct Hc as [-> ->]; eauto]. destruct Hc as (C1 & s1 & C2 & s2 & D1 & D2 & D3 & D4).
        pose proof (denotes_eq _ _ _ _ D1 Hy1). pose proof (denotes_eq _ _ _ _ D2 Hy2). subst y1 y2. split; eexists; (split; [eauto|]); eapply ReachCross; eauto. }
      destruct (negb acc && eo_skip_failures E); [subst; auto|]. apply (replace_two_new (fun z => z = b1 \/ z = b2)) in Hr as [_ Hr]; auto.
      intros a Ha. split; [auto|]. destruct (Hr a Ha) as [Ha'|[-> | ->]]; auto; apply Rb. }
  assert (Hsteps : forall n p s temp e p' s' k, Forall R p -> evol_steps E n p s d bl temp cur st e = Ok (p', s', k) -> Forall R p').
  { clear -Hstep. induction n as [|n IH]; intros p s temp e p' s' k HR Hs; cbn [evol_steps] in Hs; [injection Hs as <- _ _; auto|].
    apply bind_ok in Hs as ([[p1 s1] k1] & H1 & Hs). eauto. }
  assert (Hhof : forall p h h', Forall R p -> (forall m, In (Some m) h -> R m) -> update_hof E h p cur = Ok h' -> forall m, In (Some m) h' -> R m).
  { clear. intros p. unfold update_hof, update_from_members. induction p as [|a p IH]; intros h h' Hp Hh Hu; cbn [foldM] in Hu; [injection Hu as <-; auto|].
    apply bind_ok in Hu as (h1 & H1 & Hu). inversion Hp as [|? ? Ha Hp']; subst. eapply IH; [exact Hp'| |exact Hu].
    intros m Hm. unfold consider in H1. apply bind_ok in H1 as (ok & _ & H1).
    assert (Hset : set_index h (m_complexity a) (Some a) = Ok h1 -> R m).
    { unfold set_index. destruct (_ <? _); [|discriminate]. intros [= <-]. apply in_upd in Hm as [Hm|[= ->]]; auto. }
    destruct ok; cbn [negb] in H1; [|injection H1 as <-; auto]. destruct (_ =? 0); [injection H1 as <-; auto|]. destruct (_ <=? _); [injection H1 as <-; auto|].
    apply bind_ok in H1 as (slot & _ & H1). destruct slot as [b|]; [|auto]. destruct (is_less _); [auto|injection H1 as <-; auto]. }
  assert (R0 : Forall R pop).
  { rewrite Forall_forall in *. intros m Hm. split; auto. destruct (wf_denotes E nf B _ (so_expr _ _ _ _ _ (Hp m Hm))) as (x & Hd & _). exists x. split; auto. constructor. exists m. auto. }
  assert (Hcyc : forall is_ n p s h e p' s' h' k, Forall R p -> (forall m, In (Some m) h -> R m) -> sr_cycles E is_ n p s h d bl cur st e = Ok (p', s', h', k) ->
    Forall R p' /\ forall m, In (Some m) h' -> R m).
  { clear -Hsteps Hhof. induction is_ as [|i is_ IH]; intros n p s h e p' s' h' k HR Hh Hs; cbn [sr_cycles] in Hs; [injection Hs as <- _ <- _; auto|].
    apply bind_ok in Hs as ([[p1 s1] k1] & H1 & Hs). apply bind_ok in Hs as (h1 & H2 & Hs). unfold reg_evol_cycle in H1. apply Hsteps in H1; auto. eapply IH; [exact H1| |exact Hs]. eauto. }
  unfold s_r_cycle in Hs. apply bind_ok in Hs as (h0 & Hh0 & Hs). 
  assert (Rh0 : forall m, In (Some m) h0 -> R m).
  { eapply Hhof; [exact R0| |exact Hh0]. intros m Hm. unfold hof_new in Hm. apply repeat_spec in Hm. discriminate. }
  destruct (Hcyc _ _ _ _ _ _ _ _ _ _ R0 Rh0 Hs) as [HRa HRh].
  intros m' [Hm|Hm]; [rewrite Forall_forall in HRa; apply (HRa m' Hm)|apply (HRh m' Hm)].
Qed.

(** A kind whose configured weight is zero is never used ([Optimize] apart, see C43_zero_weight_refuted). *)
Theorem C65_disabled : forall (T : Type) (E : evo_cfg T) nf B cur bl m c,
  let F := ec_F (eo_C E) in
  sound E nf B bl m -> (consts (m_expr m) = [] <-> ~ exists t i, represents (m_expr m) t /\ subtree (TConst i) t) ->
  fleb F (fzero F) (fzero F) = true -> (forall n, n <= 8 -> fleb F (fmul F (fzero F) (fdiv F (eo_of_nat E n) (eo_of_nat E 8))) (fzero F) = true) ->
  weight_of c (eo_weights E) = fzero F -> enabled E nf cur m c -> c = Optimize.
Proof.
  intros T E nf B cur bl m c F Hm Hu H0 Hmul Hz [He|He]; auto. exfalso. destruct (so_expr _ _ _ _ _ Hm) as (t & Hr & _).
  assert (Hu' : consts (m_expr m) = [] <-> ~ contains_constant t).
  { rewrite Hu. unfold contains_constant. split; intros K K'; apply K; [destruct K' as (i & K'); eauto|]. destruct K' as (t1 & i & R1 & K'). unfold represents in *. rewrite Hr in R1. apply flatten_inj in R1. subst. eauto. }
  destruct (C43_conditioning F (eo_of_nat E) (eo_weights E) (m_expr m) t (m_complexity m) (mkCond (eo_simplify E) (oc_enabled (eo_opt E)) (eo_opt_prob E)) cur nf Hr Hu') as (_ & H2 & _ & _ & H5 & H6).
  unfold weights_for in He. unfold F in *.
  assert (Hd : c = MutateConstant \/ c <> MutateConstant) by (destruct c; auto; right; discriminate). destruct Hd as [->|Hc].
  - destruct (is_leaf_node (root_node t)) eqn:El.
    + rewrite H5, Hz in He by (rewrite <- leaf_operator; congruence). destruct (0 <? _); congruence.
    + rewrite H6, Hz, Hmul in He; [discriminate|lia|rewrite <- leaf_operator; auto].
  - destruct (H2 c Hc) as [E1|E1]; rewrite E1 in He; rewrite ?Hz in He; congruence.
Qed.

From Coq Require Import QArith.
Local Open Scope nat_scope.
(** The iteration of C42_case, in which only node addition has weight: everything is reached by adding nodes, exchanging subtrees and (were it on) optimising constants. *)
Example C65_case : exists a b p s h k,
  evo_ok (evo_demo true (XF (1 # 10))) 1 9 9 /\ Forall (sound (evo_demo true (XF (1 # 10))) 1 9 None) [a; b]
  /\ s_r_cycle (evo_demo true (XF (1 # 10))) [a; b] evo_start demo_data None 9 evo_stats = Ok (p, s, h, k) /\ map m_id p = [4; 5]
  /\ (forall n, n <= 8 -> fleb xqops (fmul xqops (XF 0) (fdiv xqops (eo_of_nat (evo_demo true (XF (1 # 10))) n) (eo_of_nat (evo_demo true (XF (1 # 10))) 8))) (XF 0) = true)
  /\ enabled (evo_demo true (XF (1 # 10))) 1 9 b AddNode /\ ~ enabled (evo_demo true (XF (1 # 10))) 1 9 b DeleteNode
  /\ (consts (m_expr b) = [] <-> ~ exists t i, represents (m_expr b) t /\ subtree (TConst i) t).
Proof.
  destruct C42_case as (a & b & H1 & H2 & _ & Hb & p & s & h & k & H3 & H4 & _). exists a, b, p, s, h, k.
  split; [exact H1|]. split; [exact H2|]. split; [exact H3|]. split; [exact H4|]. split.
  { intros n Hn. do 9 (destruct n as [|n]; [reflexivity|]). lia. }
  rewrite Hb. split; [|split].
  - right. assert (E : m_complexity b = 3).
    { inversion H2 as [|? ? _ H2']. inversion H2' as [|? ? Sb _]. pose proof (so_complexity _ _ _ _ _ Sb) as Hc. rewrite Hb in Hc. rewrite Hc. reflexivity. }
    unfold weights_for. rewrite Hb, E. reflexivity.
  - intros [K|K]; [discriminate|]. unfold weights_for in K. rewrite Hb in K. cbn in K. discriminate.
  - cbn. split; [discriminate|]. intros K. exfalso. apply K. exists (TOp 5 [TVar 0; TConst 0]), 0. split; [reflexivity|].
    apply sub_child with (c := TConst 0); [right; left; reflexivity|constructor].
Qed.
Print Assumptions C65_child.
Print Assumptions C65_no_candidate.
Print Assumptions C65_children.
Print Assumptions C65_step.
Print Assumptions C65_reachable.
Print Assumptions C65_disabled.

(** x0 has no operands to swap. *)
Example C65_no_candidate_case : exists m,
  sound (evo_demo true (XF (1 # 10))) 1 9 None m /\ denotes xqops (m_expr m) (XVar 0)
  /\ exists g ev, attempts (evo_demo true (XF (1 # 10))) 10 SwapOperands (es_rng evo_start) (es_ev evo_start) m demo_data None (XF 1) 9 0 = Ok (None, 0, g, ev).
Proof.
  assert (Ha : exists a, evo_member 0 0 (mkExpr [Var 0] [] []) = Ok a) by (eexists; vm_compute; reflexivity). destruct Ha as (a & Ha). exists a. split.
  - eapply evo_member_sound; [|exact Ha]. exists (TVar 0). split; [reflexivity|]. cbn. repeat split; lia.
  - vm_compute in Ha. injection Ha as <-. split.
    + exists (TVar 0). split; [reflexivity|]. split; [|reflexivity]. cbn. intros i [[=]|[]].
    + do 2 eexists. vm_compute. reflexivity.
Qed.
