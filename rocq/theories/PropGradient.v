(** Property C52: over the real numbers, the derivatives computed for an expression are its derivatives. *)
From Coq Require Import Reals Lra.
From Verif Require Import Base BaseLemmas Node Tree NodeProofs Compile Eval EvalTop Deriv DerivSpec DerivTop DerivReach PropEval Builtin RealOps PropReal Instances.
Local Open Scope R_scope.

(** ** Specification *)

(** Every operator of the tree is differentiable at the values it is applied to. *)
Fixpoint regular (var cst : nat -> R) (t : tree) : Prop :=
  match t with
  | TVar _ | TConst _ => True
  | TOp op ts => smooth (List.length ts) op (map (teval rbuiltin var cst) ts) /\ fold_right (fun t P => regular var cst t /\ P) True ts
  end.
(** Replacing one value. *)
Definition at_index (f : nat -> R) (k : nat) (x : R) (i : nat) : R := if Nat.eqb i k then x else f i.

(** ** Proof *)
Lemma lim_of_eq (f : R -> R) s l l' : derivable_pt_lim f s l -> l = l' -> derivable_pt_lim f s l'.
Proof. intros H <-. exact H. Qed.
Lemma weighted_chain P v : weighted P 0 v = chain_sum rops P v.
Proof.
  unfold chain_sum. assert (G : forall v k acc, fold_left (fun acc jd => fadd rops acc (fmul rops (P (fst jd)) (snd jd))) (combine (seq k (List.length v)) v) acc = acc + weighted P k v).
  { clear v. induction v as [|d v IH]; intros k acc; cbn [seq List.length combine fold_left weighted]; [cbn; lra|]. rewrite IH. cbn. lra. }
  rewrite G. cbn [fzero rops]. lra.
Qed.
Lemma tree_curve (var cst : nat -> R -> R) (dvar dcst : nat -> R) s :
  (forall f, derivable_pt_lim (var f) s (dvar f)) -> (forall i, derivable_pt_lim (cst i) s (dcst i)) ->
  forall t, regular (fun f => var f s) (fun i => cst i s) t ->
  derivable_pt_lim (fun u => teval rbuiltin (fun f => var f u) (fun i => cst i u) t) s (textbook_der rops rbuiltin (fun f => var f s) (fun i => cst i s) dvar dcst t).
Proof.
  intros Hv Hc. induction t as [f|i|op ts IH] using tree_ind'; intros Hr; cbn [teval textbook_der]; [apply Hv|apply Hc|].
  cbn [regular] in Hr. destruct Hr as [Hs Hr]. rewrite <- weighted_chain.
  apply (C51_chain_rule (List.length ts) op (fun u => map (teval rbuiltin (fun f => var f u) (fun i => cst i u)) ts) s); auto.
  split; [now rewrite !map_length|]. split; [intros u; now rewrite !map_length|]. split; [reflexivity|].
  intros i d Hd. rewrite nth_error_map in Hd. destruct (nth_error ts i) as [t|] eqn:Et; [|discriminate]. injection Hd as <-.
  assert (Hrt : regular (fun f => var f s) (fun i => cst i s) t).
  { clear - Hr Et. revert i Et. induction ts as [|t0 ts IHt]; intros [|i] Et; cbn in *; try discriminate; [injection Et as <-; tauto|]. apply (IHt (proj2 Hr) i Et). }
  rewrite Forall_forall in IH. pose proof (IH t (nth_error_In _ _ Et) Hrt) as Hd. clear IH.
  assert (E : (fun u => nth i (map (teval rbuiltin (fun f => var f u) (fun i => cst i u)) ts) 0) = (fun u => teval rbuiltin (fun f => var f u) (fun i => cst i u) t)).
  { apply FunctionalExtensionality.functional_extensionality. intros u. apply nth_error_nth. rewrite nth_error_map, Et. reflexivity. }
  rewrite E. exact Hd.
Qed.
Lemma regular_ext var var' cst cst' t : (forall f, var f = var' f) -> (forall i, cst i = cst' i) -> regular var cst t -> regular var' cst' t.
Proof.
  intros Hv Hc. assert (Ev : var = var') by (apply FunctionalExtensionality.functional_extensionality; auto). assert (Ec : cst = cst') by (apply FunctionalExtensionality.functional_extensionality; auto).
  now subst.
Qed.
Lemma at_index_self f k : at_index f k (f k) = f.
Proof. apply FunctionalExtensionality.functional_extensionality. intros i. unfold at_index. destruct (Nat.eqb_spec i k); congruence. Qed.
Lemma at_index_lim f k i : derivable_pt_lim (fun u => at_index f k u i) (f k) (one_hot rops k i).
Proof.
  unfold at_index, one_hot. rewrite (Nat.eqb_sym k i). destruct (Nat.eqb i k); [apply derivable_pt_lim_id|apply derivable_pt_lim_const].
Qed.

Lemma var_direction var cst k t : regular var cst t ->
  derivable_pt_lim (fun x => teval rbuiltin (at_index var k x) cst t) (var k) (textbook_der rops rbuiltin var cst (one_hot rops k) (no_seed rops) t).
Proof.
  intros Hr. pose proof (tree_curve (fun f u => at_index var k u f) (fun i _ => cst i) (one_hot rops k) (no_seed rops) (var k)) as G.
  cbv beta in G. change (fun f => at_index var k (var k) f) with (at_index var k (var k)) in G. rewrite at_index_self in G. apply G.
  - intros f. apply at_index_lim.
  - intros i. apply derivable_pt_lim_const.
  - exact Hr.
Qed.
Lemma const_direction var cst k t : regular var cst t ->
  derivable_pt_lim (fun x => teval rbuiltin var (at_index cst k x) t) (cst k) (textbook_der rops rbuiltin var cst (no_seed rops) (one_hot rops k) t).
Proof.
  intros Hr. pose proof (tree_curve (fun f _ => var f) (fun i u => at_index cst k u i) (no_seed rops) (one_hot rops k) (cst k)) as G.
  cbv beta in G. change (fun i => at_index cst k (cst k) i) with (at_index cst k (cst k)) in G. rewrite at_index_self in G. apply G.
  - intros f. apply derivable_pt_lim_const.
  - intros i. apply at_index_lim.
  - exact Hr.
Qed.

(** ** C52 *)

(** The derivative in a feature: at each row where the expression is regular it is the derivative of the expression's value as that feature varies. *)
Theorem C52_forward_derivative : forall hash D (e : expr R) (X : matrix R) (t : tree) (o : eopts) (c : dctx R) dir (Seen : list pnode -> Prop),
  ok_tree rbuiltin D e X t -> mat_ok X -> fits_u16 e X t -> (dir < m_nrows X)%nat -> d_rows c = m_ncols X ->
  diff_reach rops rbuiltin hash D Seen c -> told_apart hash Seen (nodes e) ->
  exists c' vals ders,
    eval_diff_tree_array rops rbuiltin hash D e X dir c o = Ok (c', (vals, ders, true))
    /\ forall r, (r < m_ncols X)%nat -> let x := mat_at rops X r in let k := const_at rops e in
         nth_error vals r = Some (teval rbuiltin x k t)
         /\ (regular x k t -> exists d, nth_error ders r = Some d /\ derivable_pt_lim (fun v => teval rbuiltin (at_index x dir v) k t) (x dir) d).
Proof.
  intros hash D e X t o c dir Seen Hok HX Hf Hd Hr Hreach Hcol.
  destruct (C08_forward_derivative R rops rbuiltin hash D e X t o c dir Seen Hok HX Hf Hd Hr Hreach Hcol) as (c' & vals & ders & complete & E & _ & _ & H1 & H2 & H3 & _).
  assert (Hall : complete = true).
  { destruct (check_finite o) eqn:Ec; [|apply H1; auto]. apply H2; auto. split; [|reflexivity]. intros r _. unfold diff_finite_at.
    clear. induction t as [f|i|op ts IH] using tree_ind'; cbn [dfinite]; auto. apply andb_true_iff. split; [|destruct (_ <=? _)%nat; reflexivity]. rewrite andb_true_r.
    apply forallb_forall. intros u Hu. rewrite Forall_forall in IH. auto. }
  subst complete. exists c', vals, ders. split; auto. intros r Hrr x k. destruct (H3 (or_introl eq_refl) r Hrr) as [G1 G2]. split; [exact G1|].
  intros Hreg. eexists. split; [exact G2|]. rewrite C08_chain_rule by exact rops_zero_laws. apply var_direction. exact Hreg.
Qed.

(** The gradient in the features, and in the constants. *)
Theorem C52_gradient : forall hash D (e : expr R) (X : matrix R) (t : tree) (o : eopts) (c : dctx R) variable (Seen : list pnode -> Prop),
  ok_tree rbuiltin D e X t -> mat_ok X -> fits_u16 e X t -> (1 <= m_ncols X)%nat -> d_rows c = m_ncols X ->
  grad_reach rops rbuiltin hash D Seen c -> told_apart hash Seen (nodes e) ->
  exists c' vals G,
    eval_grad_tree_array rops rbuiltin hash D e X variable c o = Ok (c', (vals, G, true))
    /\ m_nrows G = (if variable then m_nrows X else List.length (consts e)) /\ m_ncols G = m_ncols X
    /\ forall r, (r < m_ncols X)%nat -> let x := mat_at rops X r in let k := const_at rops e in
         nth_error vals r = Some (teval rbuiltin x k t)
         /\ forall i, (i < m_nrows G)%nat -> regular x k t ->
            exists d, nth_error (m_data G) (i * m_ncols X + r) = Some d
            /\ if variable then derivable_pt_lim (fun v => teval rbuiltin (at_index x i v) k t) (x i) d
               else derivable_pt_lim (fun v => teval rbuiltin x (at_index k i v) t) (k i) d.
Proof.
  intros hash D e X t o c variable Seen Hok HX Hf Hn Hr Hreach Hcol.
  destruct (C09_gradient R rops rbuiltin hash D e X t o c variable Seen Hok HX Hf Hn Hr Hreach Hcol) as (c' & vals & G & complete & E & _ & Hd & Hc & _ & H1 & H2 & H3).
  assert (Hall : complete = true).
  { destruct (check_finite o) eqn:Ec; [|apply H1; auto]. apply H2; auto. split; [|reflexivity]. intros r _. unfold finite_at.
    clear. induction t as [f|i|op ts IH] using tree_ind'; cbn [tfinite]; auto. apply andb_true_iff. split; [|reflexivity].
    apply forallb_forall. intros u Hu. rewrite Forall_forall in IH. auto. }
  subst complete. exists c', vals, G. split; auto. split; [rewrite Hd; reflexivity|]. split; auto.
  intros r Hrr x k. destruct (H3 (or_introl eq_refl) r Hrr) as [G1 G2]. split; [exact G1|]. intros i Hi Hreg. rewrite Hd in Hi. eexists. split; [apply G2; exact Hi|].
  destruct (C09_gradient_is_derivative R rops rbuiltin e X t i r rops_zero_laws) as (_ & E1 & E2).
  destruct variable; [rewrite E1; apply var_direction|rewrite E2; apply const_direction]; exact Hreg.
Qed.

(** sin(c0 * x0) / x1 at the rows (1, 2) and (3, 4), with c0 = 5. *)
Definition real_expr : expr R := mkExpr [Const 0; Var 0; Op 2 5; Op 1 25; Var 1; Op 2 2] [5] [].
Definition real_tree : tree := TOp 2 [TOp 25 [TOp 5 [TConst 0; TVar 0]]; TVar 1].
Definition real_data : matrix R := mkMat [1; 3; 2; 4] 2 2.
Example C52_case : let hash := hash_at (nodes real_expr) in let c := dctx_new rops 2 in
  ok_tree rbuiltin 3 real_expr real_data real_tree /\ mat_ok real_data /\ fits_u16 real_expr real_data real_tree /\ d_rows c = m_ncols real_data
  /\ diff_reach rops rbuiltin hash 3 (fun _ => True) c /\ grad_reach rops rbuiltin hash 3 (fun _ => True) c /\ told_apart hash (fun _ => True) (nodes real_expr)
  /\ (forall r, (r < 2)%nat -> regular (mat_at rops real_data r) (const_at rops real_expr) real_tree)
  /\ teval rbuiltin (mat_at rops real_data 1) (const_at rops real_expr) real_tree = sin (5 * 3) / 4.
Proof.
  cbv zeta. split; [split; [reflexivity|cbn; repeat split; auto with arith]|]. split; [reflexivity|]. split; [unfold fits_u16; cbn; unfold u16_max; lia|]. split; [reflexivity|].
  split; [constructor|]. split; [constructor|]. split; [apply hash_at_told_apart|]. split; [|reflexivity].
  intros r Hr. cbn [regular real_tree List.length map teval fold_right]. repeat split.
  - exists Div. split; [reflexivity|]. destruct r as [|[|r]]; [| |lia]; cbn; lra.
  - exists Sin. split; reflexivity.
  - exists Mul. split; reflexivity.
Qed.

Print Assumptions C52_forward_derivative.
Print Assumptions C52_gradient.
