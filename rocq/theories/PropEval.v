(** Properties C01-C09: validity, ranges, folds, compiled evaluation, derivatives. *)
From Verif Require Import Base BaseLemmas Node Tree NodeProofs SpanProofs Compile CompileProofs Eval EvalProofs
  EvalTop Deriv DerivSpec DerivProofs DerivTop DerivReach PlanSpec Instances.
From Coq Require Import SpecFloat.

(** The hash used in the cases below has no collision on the program it is made for. *)
Lemma hash_at_told_apart (Seen : list pnode -> Prop) ns0 : told_apart (hash_at ns0) Seen ns0.
Proof.
  intros ns _ H _. unfold hash_at in H. destruct (list_eq_dec pnode_eq_dec ns ns0); auto.
  destruct (list_eq_dec pnode_eq_dec ns0 ns0); [discriminate|congruence].
Qed.

(** ** C01 *)
Theorem C01_valid_postfix_exact : forall ns : list pnode,
  is_valid_postfix ns = true <-> exists! t, proper t /\ ns = flatten t.
Proof.
  intros ns. rewrite is_valid_postfix_iff. split.
  - intros (t & Hp & ->). exists t. split; auto. intros t' [_ H]. now apply flatten_inj.
  - intros (t & [Hp ->] & _). eauto.
Qed.

Example C01_case : is_valid_postfix [Var 0; Const 0; Op 2 5; Op 1 22] = true
  /\ is_valid_postfix [Var 0; Op 2 5; Const 0] = false /\ is_valid_postfix [Op 0 1] = false.
Proof. repeat split. Qed.

(** ** C02 *)
(** The ranges tile [a, b): first starts at [a], each next one right after, the last ends before [b]. *)
Fixpoint tiles (a b : nat) (rs : list (nat * nat)) : Prop :=
  match rs with
  | [] => a = b
  | (s, e) :: rs' => s = a /\ s <= e /\ tiles (e + 1) b rs'
  end.
Definition nodes_between (ns : list pnode) (a b : nat) : list pnode := firstn (b + 1 - a) (skipn a ns).

Lemma tiles_spans cs : forall a, tiles a (a + sum_list (map tsize cs)) (spans a cs).
Proof.
  induction cs as [|c cs IH]; intros a; cbn; [lia|]. pose proof (tsize_pos c).
  split; auto. split; [lia|]. replace (a + tsize c - 1 + 1) with (a + tsize c) by lia.
  rewrite Nat.add_assoc. apply IH.
Qed.

Lemma nodes_between_sub t i s : subtree_at t i s ->
  nodes_between (flatten t) (i + 1 - tsize s) i = flatten s.
Proof.
  intros H. apply subtree_at_spec in H as [_ (l & r & E & Hl)]. unfold nodes_between. rewrite E.
  replace (i + 1 - tsize s) with (List.length l) by lia.
  rewrite skipn_app, skipn_all, Nat.sub_diag. cbn [app skipn].
  replace (i + 1 - List.length l) with (List.length (flatten s)) by (rewrite flatten_length; lia).
  rewrite firstn_app, firstn_all, Nat.sub_diag. cbn. apply app_nil_r.
Qed.

Theorem C02_subtree_ranges : forall (T : Type) (e : expr T) (t : tree), represents e t ->
  exists sizes, subtree_sizes (nodes e) = Ok sizes /\ List.length sizes = List.length (nodes e)
  /\ forall i, i < List.length (nodes e) ->
     exists s a, subtree_at t i s /\ nth_error sizes i = Some (tsize s)
       /\ subtree_range sizes i = Ok (a, i) /\ a <= i /\ nodes_between (nodes e) a i = flatten s.
Proof.
  intros T e t Hr. unfold represents in Hr. rewrite Hr. exists (tsizes t). rewrite subtree_sizes_flatten.
  split; auto. rewrite tsizes_length, flatten_length. split; auto. intros i Hi.
  destruct (subtree_at_exists t i Hi) as (s & Hs). exists s, (i + 1 - tsize s).
  split; auto. split; [apply (proj1 (subtree_at_spec _ _ _ Hs))|].
  rewrite (subtree_range_flatten _ _ _ Hs). pose proof (tsize_pos s). repeat split; [lia|].
  now apply nodes_between_sub.
Qed.

Theorem C02_child_ranges : forall (T : Type) (e : expr T) (t : tree) sizes i op cs,
  represents e t -> subtree_sizes (nodes e) = Ok sizes -> subtree_at t i (TOp op cs) ->
  exists a rs, subtree_range sizes i = Ok (a, i) /\ child_ranges sizes i (List.length cs) = Ok rs
    /\ List.length rs = List.length cs /\ tiles a i rs
    /\ forall k c, nth_error cs k = Some c ->
         exists s f, nth_error rs k = Some (s, f) /\ nodes_between (nodes e) s f = flatten c /\ subtree_at t f c.
Proof.
  intros T e t sizes i op cs Hr Hs Ha. unfold represents in Hr. rewrite Hr in *. rewrite subtree_sizes_flatten in Hs.
  injection Hs as <-. exists (i + 1 - tsize (TOp op cs)), (spans (i + 1 - tsize (TOp op cs)) cs).
  split; [now apply subtree_range_flatten|]. split; [now apply child_ranges_flatten|].
  split; [apply spans_length|].
  assert (Hle : tsize (TOp op cs) <= i + 1).
  { apply subtree_at_spec in Ha as [_ (pl & pr & _ & Hl)]. lia. }
  split.
  - assert (E : i = i + 1 - tsize (TOp op cs) + sum_list (map tsize cs)) by (cbn [tsize] in Hle |- *; lia).
    rewrite E at 2. apply tiles_spans.
  - intros k c Hk. pose proof (spans_nth cs (i + 1 - tsize (TOp op cs)) k c Hk) as Hn.
    do 2 eexists. split; [exact Hn|]. pose proof (nth_error_split cs k Hk) as (l & r & -> & Hl).
    pose proof (subtree_at_child t i op l c r Ha) as Hc.
    rewrite <- Hl, firstn_app, firstn_all, Nat.sub_diag in *. cbn [firstn] in *. rewrite app_nil_r in *.
    split; [|exact Hc].
    rewrite <- (nodes_between_sub _ _ _ Hc). f_equal. pose proof (tsize_pos c). lia.
Qed.

Example C02_case : represents (mkExpr [Var 0; Const 0; Op 2 5; Var 1; Op 2 0] [7%Z] [])
                              (TOp 0 [TOp 5 [TVar 0; TConst 0]; TVar 1])
  /\ subtree_sizes [Var 0; Const 0; Op 2 5; Var 1; Op 2 0] = Ok [1; 1; 3; 1; 5]
  /\ child_ranges [1; 1; 3; 1; 5] 4 2 = Ok [(0, 2); (3, 3)]
  /\ subtree_at (TOp 0 [TOp 5 [TVar 0; TConst 0]; TVar 1]) 4 (TOp 0 [TOp 5 [TVar 0; TConst 0]; TVar 1]).
Proof. repeat split. change 4 with (tsize (TOp 0 [TOp 5 [TVar 0; TConst 0]; TVar 1]) - 1). constructor. Qed.

(** ** C03 *)
Theorem C03_tree_fold : forall (R B : Type) (fl : pnode -> R) (fb : pnode -> B) (op : B -> list R -> R) (t : tree) reuse,
  tree_mapreduce fl fb op (flatten t) = Ok (tree_fold fl fb op t)
  /\ tree_mapreduce_with_stack fl fb op (flatten t) reuse = Ok (tree_fold fl fb op t).
Proof.
  intros. unfold tree_mapreduce, tree_mapreduce_with_stack.
  destruct reuse; rewrite tree_mapreduce_impl_flatten; auto.
Qed.

Theorem C03_panics_exactly : forall (R B : Type) (fl : pnode -> R) (fb : pnode -> B) (op : B -> list R -> R) (ns : list pnode) reuse,
  tree_mapreduce_with_stack fl fb op ns reuse = Panic <-> ~ exists t, ns = flatten t.
Proof.
  intros. assert (E : tree_mapreduce_with_stack fl fb op ns reuse = tree_mapreduce_impl fl fb op ns []).
  { destruct reuse; reflexivity. }
  rewrite E, <- (mapreduce_ok_iff fl fb op ns). split.
  - intros H [r Hr]. congruence.
  - intros H. destruct (tree_mapreduce_impl fl fb op ns []) as [r| |] eqn:Er; auto.
    + exfalso; apply H; eauto. exists r. reflexivity.
    + exfalso. unfold tree_mapreduce_impl in Er.
      pose proof (mapreduce_never_fuel fl fb op ns []).
      destruct (foldM (mapreduce_step fl fb op) ns []) as [st| |]; cbn in Er; try congruence.
      destruct st as [|a [|b st]]; discriminate.
Qed.

Theorem C03_count_depth : forall stale t, count_depth stale (flatten t) = Ok (tdepth t).
Proof. exact count_depth_flatten. Qed.

Example C03_case : count_depth [9; 9] (flatten (TOp 0 [TOp 5 [TVar 0; TConst 0]; TVar 1])) = Ok 3
  /\ tree_mapreduce (fun _ => 1) (fun _ => tt) (fun _ => sum_list) [Var 0; Op 2 0] = Panic.
Proof. split; reflexivity. Qed.

Lemma filter_flat_map {A B} (p : B -> bool) (f : A -> list B) l : filter p (flat_map f l) = flat_map (fun x => filter p (f x)) l.
Proof. induction l as [|x l IH]; cbn; [reflexivity|]. now rewrite filter_app, IH. Qed.
Lemma length_flat_map {A B} (f : A -> list B) l : List.length (flat_map f l) = sum_list (map (fun x => List.length (f x)) l).
Proof. induction l as [|x l IH]; cbn; [reflexivity|]. now rewrite app_length, IH. Qed.
Lemma map_forall_eq {A B} (f g : A -> B) l : Forall (fun x => f x = g x) l -> map f l = map g l.
Proof. intros H. induction H; cbn; congruence. Qed.
Lemma flat_map_flat_map {A B C} (g : B -> list C) (f : A -> list B) l : flat_map g (flat_map f l) = flat_map (fun x => flat_map g (f x)) l.
Proof. induction l as [|x l IH]; cbn; [reflexivity|]. now rewrite flat_map_app, IH. Qed.
Lemma list_max0_spec l : list_max0 l = fold_right Nat.max 0 l.
Proof. unfold list_max0. rewrite <- fold_symmetric; [reflexivity| |]; intros; lia. Qed.
Lemma maxes_app l l' : fold_right Nat.max 0 (l ++ l') = Nat.max (fold_right Nat.max 0 l) (fold_right Nat.max 0 l').
Proof. induction l as [|x l IH]; cbn [app fold_right]; [reflexivity|]. rewrite IH. lia. Qed.
Lemma maxes_flat_map {A} (f : A -> list nat) l : fold_right Nat.max 0 (flat_map f l) = fold_right Nat.max 0 (map (fun x => fold_right Nat.max 0 (f x)) l).
Proof. induction l as [|x l IH]; cbn [flat_map map fold_right]; [reflexivity|]. rewrite maxes_app, IH. reflexivity. Qed.
Lemma existsb_filter {A} (p : A -> bool) l : existsb p l = negb (List.length (filter p l) =? 0).
Proof. induction l as [|x l IH]; cbn; [reflexivity|]. destruct (p x); cbn; auto. Qed.

Theorem C03_counts : forall t, let ns := flatten t in
  count_nodes ns = tsize t /\ tsize t = vars_in t + consts_in t + ops_in t
  /\ count_variable_nodes ns = vars_in t /\ count_constant_nodes ns = consts_in t /\ count_operator_nodes ns = ops_in t
  /\ (has_variables ns = true <-> 0 < vars_in t) /\ (has_constants ns = true <-> 0 < consts_in t) /\ (has_operators ns = true <-> 0 < ops_in t)
  /\ max_arity ns = widest t
  /\ (is_leaf ns = true <-> match t with TOp _ _ => False | _ => True end).
Proof.
  intros t. cbv zeta.
  assert (Hv : forall t, List.length (filter is_var (flatten t)) = vars_in t).
  { induction t0 as [f|i|op cs IH] using tree_ind'; cbn [flatten vars_in]; [reflexivity..|].
    rewrite filter_app, app_length, filter_flat_map, length_flat_map. cbn. rewrite Nat.add_0_r. f_equal. now apply map_forall_eq. }
  assert (Hc : forall t, List.length (filter is_const (flatten t)) = consts_in t).
  { induction t0 as [f|i|op cs IH] using tree_ind'; cbn [flatten consts_in]; [reflexivity..|].
    rewrite filter_app, app_length, filter_flat_map, length_flat_map. cbn. rewrite Nat.add_0_r. f_equal. now apply map_forall_eq. }
  assert (Ho : forall t, List.length (filter is_op (flatten t)) = ops_in t).
  { induction t0 as [f|i|op cs IH] using tree_ind'; cbn [flatten ops_in]; [reflexivity..|].
    rewrite filter_app, app_length, filter_flat_map, length_flat_map. cbn [filter is_op List.length]. rewrite Nat.add_comm. do 2 f_equal. now apply map_forall_eq. }
  assert (Hm : forall t, max_arity (flatten t) = widest t).
  { intros t0. unfold max_arity. rewrite list_max0_spec. induction t0 as [f|i|op cs IH] using tree_ind'; cbn [flatten widest]; [reflexivity..|].
    rewrite flat_map_app, maxes_app, flat_map_flat_map, maxes_flat_map. cbn [flat_map app fold_right]. rewrite Nat.max_0_r, Nat.max_comm. f_equal.
    f_equal. apply map_forall_eq. exact IH. }
  assert (Hp : forall ns, List.length ns = List.length (filter is_var ns) + List.length (filter is_const ns) + List.length (filter is_op ns)).
  { induction ns as [|[f|i|a o] ns IH]; cbn [filter is_var is_const is_op List.length]; [reflexivity|rewrite IH; lia..]. }
  unfold has_variables, has_constants, has_operators, count_variable_nodes, count_constant_nodes, count_operator_nodes, count_nodes.
  rewrite !existsb_filter, Hv, Hc, Ho, Hm, (flatten_length t).
  assert (Hs : tsize t = vars_in t + consts_in t + ops_in t) by (rewrite <- Hv, <- Hc, <- Ho, <- flatten_length; apply Hp).
  assert (Hb : forall n, negb (n =? 0) = true <-> 0 < n) by (intros [|n]; cbn; split; intros; try lia; congruence).
  split; [reflexivity|]. split; [exact Hs|]. do 3 (split; [reflexivity|]). do 3 (split; [apply Hb|]). split; [reflexivity|].
  destruct t as [f|i|op cs]; cbn [flatten]; [split; auto..|].
  split; [|tauto]. unfold is_leaf. destruct (flat_map flatten cs) as [|a [|b l]]; cbn; [discriminate| |].
  - destruct a; discriminate.
  - destruct a; discriminate.
Qed.
Example C03_counts_case : let t := TOp 0 [TOp 5 [TVar 0; TConst 0]; TOp 1 [TVar 1; TConst 1; TVar 2]] in
  (vars_in t, consts_in t, ops_in t, widest t) = (3, 2, 3, 3) /\ max_arity (flatten t) = 3 /\ is_leaf (flatten t) = false /\ is_leaf [Const 4] = true.
Proof. repeat split. Qed.

(** ** C04 *)
Theorem C04_compiled_eval : forall (T : Type) (F : FloatOps T) (O : OpSet T) hash D (e : expr T) (X : matrix T) (t : tree) (o : eopts),
  ok_tree O D e X t -> mat_ok X -> fits_u16 e X t ->
  exists out complete, eval_tree_array F O hash D e X o = Ok (out, complete)
    /\ List.length out = m_ncols X
    /\ (complete = true \/ early_exit o = false ->
        forall r, r < m_ncols X -> nth_error out r = Some (value_at F O e X t r)).
Proof.
  intros T F O hash D e X t o Hok HX Hf. rewrite (eval_tree_array_spec F O hash D e X t o Hok HX Hf).
  unfold expected. destruct (kstop o (all_fin F O e X t)) eqn:Ek.
  - do 2 eexists; split; [reflexivity|]. rewrite fill_length. split; auto.
    intros [H|H]; [discriminate|]. unfold kstop in Ek. rewrite H, andb_false_r in Ek. discriminate.
  - do 2 eexists; split; [reflexivity|]. rewrite tab_length. split; auto. intros _ r Hr. now apply tab_nth.
Qed.

(** (x0*c0) + x1, with two rows. *)
Definition ex_tree := TOp 0 [TOp 5 [TVar 0; TConst 0]; TVar 1].
Definition ex_expr : expr Z := mkExpr (flatten ex_tree) [10%Z] [].
Definition ex_data : matrix Z := mkMat [1; 2; 3; 4]%Z 2 2.

Lemma ex_ok : ok_tree (rational_ops zops) 2 ex_expr ex_data ex_tree /\ mat_ok ex_data /\ fits_u16 ex_expr ex_data ex_tree.
Proof.
  assert (2 <= u16_max) by (unfold u16_max; lia).
  repeat split; cbn; auto with arith.
Qed.

Example C04_case :
  eval_tree_array zops (rational_ops zops) hash0 2 ex_expr ex_data (mkOpts true true) = Ok ([13; 24]%Z, true)
  /\ value_at zops (rational_ops zops) ex_expr ex_data ex_tree 1 = 24%Z.
Proof. split; reflexivity. Qed.

(** ** C05 *)
Theorem C05_plan_sound : forall hash D ns nf nc known (t : tree),
  ns = flatten t -> tree_ok D nf nc known t -> nf <= u16_max -> nc <= u16_max -> ops_in t <= u16_max ->
  exists p st, compile_plan hash D ns nf nc = Ok p
    /\ sym_run (p_slots p) (p_instrs p) (fun _ => None) = Some st
    /\ src_tree st (p_root p) = Some t
    /\ p_slots p <= ops_in t
    /\ p_slots p <= tdepth t + (tdepth t - 1) * (D - 1).
Proof.
  intros hash D ns nf nc known t -> Hok Hnf Hnc Ho.
  pose proof (need_le_ops t) as Hn.
  destruct (compile_plan_spec D nf nc known hash t Hok Hnf Hnc ltac:(lia)) as (is & s & E & HC).
  destruct (codes_sym _ _ _ _ HC) as (st & Hr & Hs & _).
  do 2 eexists. split; [exact E|]. cbn [p_slots p_instrs p_root]. repeat split; eauto.
  pose proof (need_depth D nf nc known t Hok) as Hd. pose proof (tdepth_pos t).
  destruct (Nat.leb_spec (tdepth t) 1); [lia|].
  assert ((tdepth t - 2) * (D - 1) <= (tdepth t - 1) * (D - 1)) by (apply Nat.mul_le_mono_r; lia).
  lia.
Qed.

(** The number of slots is bounded by the depth alone, sharply. *)
Theorem C05_slots_by_depth : forall hash D ns nf nc known (t : tree) p,
  ns = flatten t -> tree_ok D nf nc known t -> 2 <= tdepth t -> ops_in t <= u16_max ->
  compile_plan hash D ns nf nc = Ok p -> p_slots p <= (tdepth t - 2) * (D - 1) + 2.
Proof.
  intros hash D ns nf nc known t p -> Hok Hd Ho E.
  pose proof (need_le_ops t) as Hn.
  assert (Hnn : nf <= u16_max /\ nc <= u16_max).
  { unfold compile_plan in E. apply bind_ok in E as (? & E1 & E). apply bind_ok in E as (? & E2 & _).
    destruct (Nat.leb_spec nf u16_max); [|discriminate]. destruct (Nat.leb_spec nc u16_max); [|discriminate]. auto. }
  destruct (compile_plan_spec D nf nc known hash t Hok (proj1 Hnn) (proj2 Hnn) ltac:(lia)) as (is & s & E' & _).
  rewrite E in E'. injection E' as ->. cbn [p_slots].
  pose proof (need_depth D nf nc known t Hok) as Hd'. destruct (Nat.leb_spec (tdepth t) 1); [lia|]. exact Hd'.
Qed.

Example C05_case :
  exists p, compile_plan hash0 2 (flatten (TOp 0 [ex_tree; ex_tree])) 2 1 = Ok p /\ p_slots p = 3
    /\ List.length (p_instrs p) = 5
    /\ tree_ok 2 2 1 (oknown (rational_ops zops)) (TOp 0 [ex_tree; ex_tree]).
Proof. eexists. split; [vm_compute; reflexivity|]. repeat split; cbn; auto with arith. Qed.

(** ** C06 *)
Lemma root_fin_iff (T : Type) (F : FloatOps T) (e : expr T) t :
  root_fin F e t = true <-> forall i, t = TConst i -> ffinite F (const_at F e i) = true.
Proof.
  unfold root_fin. destruct t as [f|i|op ts]; split; auto; try (intros _ i H; discriminate).
  intros H j E. injection E as <-. exact H.
Qed.

Theorem C06_flag_exact : forall (T : Type) (F : FloatOps T) (O : OpSet T) hash D (e : expr T) (X : matrix T) (t : tree) (o : eopts) out complete,
  ok_tree O D e X t -> mat_ok X -> fits_u16 e X t -> 1 <= m_ncols X ->
  eval_tree_array F O hash D e X o = Ok (out, complete) ->
  (check_finite o = false -> complete = true)
  /\ (check_finite o = true ->
        (complete = true <->
           (forall r, r < m_ncols X -> finite_at F O e X t r = true)
           /\ (forall i, t = TConst i -> ffinite F (const_at F e i) = true))).
Proof.
  intros T F O hash D e X t o out complete Hok HX Hf Hn H.
  rewrite (eval_tree_array_spec F O hash D e X t o Hok HX Hf) in H.
  assert (Hall : all_fin F O e X t = true <->
           (forall r, r < m_ncols X -> finite_at F O e X t r = true)
           /\ (forall i, t = TConst i -> ffinite F (const_at F e i) = true)).
  { unfold all_fin. rewrite andb_true_iff, (colfin_rows F O e X t Hn).
    assert (root_fin F e t = true <-> forall i, t = TConst i -> ffinite F (const_at F e i) = true); [|tauto].
    apply root_fin_iff. }
  rewrite <- Hall. unfold expected, kstop, kflag in H. split; intros Hc; rewrite Hc in H; cbn in H.
  - injection H as _ <-. reflexivity.
  - destruct (early_exit o), (all_fin F O e X t); cbn in H; injection H as _ <-; split; auto.
Qed.

Theorem C06_complete_output_finite : forall (T : Type) (F : FloatOps T) (O : OpSet T) hash D (e : expr T) (X : matrix T) (t : tree) (o : eopts) out r v,
  ok_tree O D e X t -> mat_ok X -> fits_u16 e X t -> (forall f, t <> TVar f) ->
  check_finite o = true -> eval_tree_array F O hash D e X o = Ok (out, true) ->
  nth_error out r = Some v -> ffinite F v = true.
Proof.
  intros T F O hash D e X t o out r v Hok HX Hf Hv Hc H Hr.
  destruct (C04_compiled_eval T F O hash D e X t o Hok HX Hf) as (out' & c' & E & Hl & Hval).
  rewrite E in H. injection H as -> ->.
  assert (Hrn : r < m_ncols X) by (rewrite <- Hl; apply nth_error_Some; congruence).
  rewrite (Hval (or_introl eq_refl) r Hrn) in Hr. injection Hr as <-.
  destruct (C06_flag_exact T F O hash D e X t o out true Hok HX Hf ltac:(lia) E) as [_ H].
  destruct (proj1 (H Hc) eq_refl) as [Hfin Hroot].
  unfold value_at. destruct t as [f|i|op ts]; cbn [teval]; [exfalso; exact (Hv f eq_refl)|apply Hroot; auto|].
  specialize (Hfin r Hrn). unfold finite_at in Hfin. cbn [tfinite] in Hfin. apply andb_true_iff in Hfin. tauto.
Qed.

Example C06_case :
  let X := mkMat [f64lit 1 0; f64lit 0 0] 1 2 in
  let e := mkExpr (flatten (TOp 17 [TVar 0])) [] [] in
  ok_tree (rational_ops f64ops) 1 e X (TOp 17 [TVar 0]) /\ mat_ok X /\ fits_u16 e X (TOp 17 [TVar 0])
  /\ (exists out, eval_tree_array f64ops (rational_ops f64ops) hash0 1 e X (mkOpts true false) = Ok (out, false))
  /\ finite_at f64ops (rational_ops f64ops) e X (TOp 17 [TVar 0]) 1 = false.
Proof.
  cbn zeta. assert (1 <= u16_max) by (unfold u16_max; lia).
  split; [|split; [|split; [|split]]]; try (repeat split; cbn; auto with arith; fail).
  - eexists; vm_compute; reflexivity.
Qed.

(** A bare variable is not checked: complete although the output is infinite. *)
Theorem C06_bare_variable_refuted : exists (e : expr spec_float) X out,
  ok_tree (rational_ops f64ops) 1 e X (TVar 0) /\ mat_ok X /\ fits_u16 e X (TVar 0)
  /\ eval_tree_array f64ops (rational_ops f64ops) hash0 1 e X (mkOpts true true) = Ok (out, true)
  /\ nth_error out 0 = Some (S754_infinity false) /\ ffinite f64ops (S754_infinity false) = false.
Proof.
  exists (mkExpr [Var 0] [] []), (mkMat [S754_infinity false] 1 1). eexists.
  assert (1 <= u16_max) by (unfold u16_max; lia).
  split; [|split; [|split; [|split; [vm_compute; reflexivity|split; reflexivity]]]]; repeat split; cbn; auto with arith.
Qed.

(** With zero rows an operator on constants is still checked, so the row-wise reading fails. *)
Theorem C06_zero_rows_refuted : exists (e : expr spec_float) X t,
  ok_tree (rational_ops f64ops) 2 e X t /\ mat_ok X /\ m_ncols X = 0
  /\ eval_tree_array f64ops (rational_ops f64ops) hash0 2 e X (mkOpts true true) = Ok ([], false)
  /\ (forall r, r < m_ncols X -> finite_at f64ops (rational_ops f64ops) e X t r = true)
  /\ (forall i, t <> TConst i).
Proof.
  exists (mkExpr [Const 0; Const 0; Op 2 2] [S754_zero false] []), (mkMat [] 0 0), (TOp 2 [TConst 0; TConst 0]).
  split; [repeat split; cbn; auto with arith|]. split; [reflexivity|]. split; [reflexivity|].
  split; [vm_compute; reflexivity|]. split; [cbn; lia|discriminate].
Qed.

(** ** C07 *)
(** Adding the formula itself to what the context has seen. *)
Definition also (Seen : list pnode -> Prop) (ns : list pnode) : list pnode -> Prop := fun ns' => Seen ns' \/ ns' = ns.
Lemma also_apart hash Seen ns : told_apart hash Seen ns -> told_apart hash (also Seen ns) ns.
Proof. intros H ns' [Hs| ->] Hh Hl; auto. Qed.
Lemma ctx_also {T} hash D Seen ns (c : ectx T) : CtxInv hash D Seen c -> CtxInv hash D (also Seen ns) c.
Proof. intros [H1 H2]. split; auto. destruct (x_plan c); auto. destruct H1 as (ns' & Hn & Hc). exists ns'. split; [left|]; auto. Qed.
Lemma dctx_also {T} hash D Seen ns (c : dctx T) : DctxInv hash D Seen c -> DctxInv hash D (also Seen ns) c.
Proof. apply DctxInv_mono. intros ns' H. left. exact H. Qed.
Lemma also_self Seen ns : also Seen ns ns.
Proof. right. reflexivity. Qed.

(** [Seen] is any set that contains the formulas evaluated in the context before: the hash has to tell [e] apart from these only. *)
Theorem C07_context_reuse : forall (T : Type) (F : FloatOps T) (O : OpSet T) hash D (out : list T) (e : expr T) (X : matrix T) (t : tree) (o : eopts) (c : ectx T) (Seen : list pnode -> Prop),
  ok_tree O D e X t -> mat_ok X -> fits_u16 e X t -> List.length out = m_ncols X -> x_rows c = m_ncols X ->
  ctx_reach F O hash D Seen c -> told_apart hash Seen (nodes e) ->
  exists c1 c2 out' complete,
    eval_tree_array_into F O hash D out e X c o = Ok (c1, out', complete)
    /\ eval_tree_array_into F O hash D out e X (ctx_new (m_ncols X)) o = Ok (c2, out', complete).
Proof.
  intros T F O hash D out e X t o c Seen Hok HX Hf Ho Hr Hreach Hcol. apply also_apart in Hcol.
  destruct (eval_into_spec F O hash D _ out e X t o c Hok HX Hf (ctx_also _ _ _ _ _ (ctx_reach_inv _ _ _ _ _ _ Hreach)) (also_self _ _) Hcol Ho Hr) as (c1 & E1 & _).
  destruct (eval_into_spec F O hash D _ out e X t o (ctx_new (m_ncols X)) Hok HX Hf (ctx_new_inv _ _ _ _) (also_self _ _) Hcol Ho eq_refl) as (c2 & E2 & _).
  exists c1, c2, (fst (expected F O out e X t o)), (snd (expected F O out e X t o)). auto.
Qed.

(** The reused evaluation is also what [eval_tree_array] computes, when it completes. *)
Theorem C07_same_as_fresh_array : forall (T : Type) (F : FloatOps T) (O : OpSet T) hash D (out : list T) (e : expr T) (X : matrix T) (t : tree) (o : eopts) (c : ectx T) (Seen : list pnode -> Prop),
  ok_tree O D e X t -> mat_ok X -> fits_u16 e X t -> List.length out = m_ncols X -> x_rows c = m_ncols X ->
  ctx_reach F O hash D Seen c -> told_apart hash Seen (nodes e) ->
  exists c1 out1 out2 complete,
    eval_tree_array_into F O hash D out e X c o = Ok (c1, out1, complete)
    /\ eval_tree_array F O hash D e X o = Ok (out2, complete)
    /\ (complete = true \/ early_exit o = false -> out1 = out2)
    /\ (out1 = out2 \/ out1 = out).
Proof.
  intros T F O hash D out e X t o c Seen Hok HX Hf Ho Hr Hreach Hcol. apply also_apart in Hcol.
  destruct (eval_into_spec F O hash D _ out e X t o c Hok HX Hf (ctx_also _ _ _ _ _ (ctx_reach_inv _ _ _ _ _ _ Hreach)) (also_self _ _) Hcol Ho Hr) as (c1 & E1 & _).
  rewrite (eval_tree_array_spec F O hash D e X t o Hok HX Hf).
  unfold expected in *. destruct (kstop o (all_fin F O e X t)) eqn:Ek.
  - do 4 eexists. split; [exact E1|]. split; [reflexivity|]. cbn. split; auto.
    intros [H|H]; [discriminate|]. unfold kstop in Ek. rewrite H, andb_false_r in Ek. discriminate.
  - do 4 eexists. split; [exact E1|]. split; [reflexivity|]. cbn. auto.
Qed.

(** Two expressions of equal length through one context: recompiled; and the hypotheses are met. *)
Example C07_case :
  let e2 := mkExpr [Var 0; Const 0; Op 2 0; Var 1; Op 2 5] [10%Z] [] in
  let hash := hash_at (nodes e2) in
  let Seen := fun ns => ns = nodes ex_expr in
  exists c1 c2, eval_tree_array_into zops (rational_ops zops) hash 2 [0; 0]%Z ex_expr ex_data (ctx_new 2) (mkOpts true true) = Ok (c1, [13; 24]%Z, true)
  /\ ctx_reach zops (rational_ops zops) hash 2 Seen c1 /\ told_apart hash Seen (nodes e2)
  /\ eval_tree_array_into zops (rational_ops zops) hash 2 [13; 24]%Z e2 ex_data c1 (mkOpts true true) = Ok (c2, [33; 48]%Z, true).
Proof.
  cbv zeta. do 2 eexists. split; [vm_compute; reflexivity|]. split; [|split; [apply hash_at_told_apart|vm_compute; reflexivity]].
  eapply (reach_eval _ _ _ _ _ (ctx_new 2) [0; 0]%Z ex_expr ex_data (mkOpts true true)); [apply reach_new|reflexivity|reflexivity|vm_compute; reflexivity].
Qed.

(** If the hash does not tell the two formulas apart the claim is false: the stale plan is used. *)
Theorem C07_collision_refuted : exists hash (e1 e2 : expr Z) X c1 c2 o1 o2,
  eval_tree_array_into zops (rational_ops zops) hash 2 [0; 0]%Z e1 X (ctx_new 2) (mkOpts true true) = Ok (c1, o1, true)
  /\ eval_tree_array_into zops (rational_ops zops) hash 2 o1 e2 X c1 (mkOpts true true) = Ok (c2, o2, true)
  /\ exists c3 o3, eval_tree_array_into zops (rational_ops zops) hash 2 o1 e2 X (ctx_new 2) (mkOpts true true) = Ok (c3, o3, true)
  /\ o2 <> o3.
Proof.
  exists (fun _ => 0%N), ex_expr, (mkExpr [Var 0; Const 0; Op 2 0; Var 1; Op 2 5] [10%Z] []), ex_data.
  do 4 eexists. split; [vm_compute; reflexivity|]. split; [vm_compute; reflexivity|].
  do 2 eexists. split; [vm_compute; reflexivity|]. discriminate.
Qed.

(** ** C08 *)
Theorem C08_forward_derivative : forall (T : Type) (F : FloatOps T) (O : OpSet T) hash D (e : expr T) (X : matrix T) (t : tree) (o : eopts) (c : dctx T) dir (Seen : list pnode -> Prop),
  ok_tree O D e X t -> mat_ok X -> fits_u16 e X t -> dir < m_nrows X -> d_rows c = m_ncols X ->
  diff_reach F O hash D Seen c -> told_apart hash Seen (nodes e) ->
  exists c' vals ders complete,
    eval_diff_tree_array F O hash D e X dir c o = Ok (c', (vals, ders, complete))
    /\ List.length vals = m_ncols X /\ List.length ders = m_ncols X
    /\ (check_finite o = false -> complete = true)
    /\ (check_finite o = true ->
          (complete = true <-> (forall r, r < m_ncols X -> diff_finite_at F O e X dir t r = true)
                               /\ (forall i, t = TConst i -> ffinite F (const_at F e i) = true)))
    /\ (complete = true \/ early_exit o = false -> forall r, r < m_ncols X ->
          nth_error vals r = Some (value_at F O e X t r) /\ nth_error ders r = Some (der_at F O e X dir t r))
    /\ (complete = false -> early_exit o = true -> vals = fill (m_ncols X) (fnan F) /\ ders = fill (m_ncols X) (fnan F)).
Proof.
  intros T F O hash D e X t o c dir Seen Hok HX Hf Hd Hr Hreach Hcol.
  destruct (eval_diff_spec F O hash D _ e X t o c dir Hok HX Hf (dctx_also _ _ _ _ _ (diff_reach_inv _ _ _ _ _ _ Hreach)) (also_self _ _) (also_apart _ _ _ Hcol) Hr Hd) as (c' & E & _).
  assert (Hfin : diff_fin F O e X dir t = true <-> (forall r, r < m_ncols X -> diff_finite_at F O e X dir t r = true)
                               /\ (forall i, t = TConst i -> ffinite F (const_at F e i) = true)).
  { rewrite diff_fin_rows.
    assert (root_fin F e t = true <-> forall i, t = TConst i -> ffinite F (const_at F e i) = true); [|tauto].
    apply root_fin_iff. }
  unfold expected_diff in E. destruct (kstop o (diff_fin F O e X dir t)) eqn:Ek.
  - do 4 eexists. split; [exact E|]. rewrite !fill_length. unfold kstop in Ek.
    destruct (check_finite o), (early_exit o), (diff_fin F O e X dir t); try discriminate.
    split; auto. split; auto. split; [discriminate|]. split; [intros _; split; [discriminate|intros H; apply Hfin in H; discriminate]|].
    split; auto. intros [H|H]; discriminate.
  - do 4 eexists. split; [exact E|]. rewrite !tab_length. split; auto. split; auto. unfold kflag, kstop in *.
    split; [intros ->; reflexivity|]. split; [intros ->; cbn; exact Hfin|]. split.
    + intros _ r Hr'. now rewrite !tab_nth by auto.
    + intros H1 H2. rewrite H2 in Ek. destruct (check_finite o), (diff_fin F O e X dir t); discriminate.
Qed.

(** In exact arithmetic the derivative is the textbook chain rule. *)
Theorem C08_chain_rule : forall (T : Type) (F : FloatOps T) (O : OpSet T) (e : expr T) (X : matrix T) dir t r,
  ZeroLaws F ->
  der_at F O e X dir t r = textbook_der F O (mat_at F X r) (const_at F e) (one_hot F dir) (no_seed F) t.
Proof. intros. unfold der_at. now apply tder_exact. Qed.

Example C08_case :
  let c := dctx_new zops 2 in
  let hash := hash_at (nodes ex_expr) in
  (exists c', eval_diff_tree_array zops (rational_ops zops) hash 2 ex_expr ex_data 0 c (mkOpts true true)
              = Ok (c', ([13; 24]%Z, [10; 10]%Z, true)))
  /\ diff_reach zops (rational_ops zops) hash 2 (fun _ => True) c /\ d_rows c = m_ncols ex_data /\ ZeroLaws zops
  /\ told_apart hash (fun _ => True) (nodes ex_expr).
Proof.
  cbn zeta. split; [eexists; vm_compute; reflexivity|]. split; [constructor|]. split; [reflexivity|]. split; [exact zops_zero_laws|].
  apply hash_at_told_apart.
Qed.

(** ** C09 *)
Theorem C09_gradient : forall (T : Type) (F : FloatOps T) (O : OpSet T) hash D (e : expr T) (X : matrix T) (t : tree) (o : eopts) (c : dctx T) variable (Seen : list pnode -> Prop),
  ok_tree O D e X t -> mat_ok X -> fits_u16 e X t -> 1 <= m_ncols X -> d_rows c = m_ncols X ->
  grad_reach F O hash D Seen c -> told_apart hash Seen (nodes e) ->
  exists c' vals G complete,
    eval_grad_tree_array F O hash D e X variable c o = Ok (c', (vals, G, complete))
    /\ List.length vals = m_ncols X
    /\ m_nrows G = n_dirs variable e X /\ m_ncols G = m_ncols X /\ mat_ok G
    /\ (check_finite o = false -> complete = true)
    /\ (check_finite o = true ->
          (complete = true <-> (forall r, r < m_ncols X -> finite_at F O e X t r = true)
                               /\ (forall i, t = TConst i -> ffinite F (const_at F e i) = true)))
    /\ (complete = true \/ early_exit o = false -> forall r, r < m_ncols X ->
          nth_error vals r = Some (value_at F O e X t r)
          /\ forall d, d < n_dirs variable e X ->
             nth_error (m_data G) (d * m_ncols X + r) = Some (grad_comp F O e X variable t d r)).
Proof.
  intros T F O hash D e X t o c variable Seen Hok HX Hf Hn Hr Hreach Hcol.
  destruct (eval_grad_spec F O hash D _ e X t o c variable Hok HX Hf (dctx_also _ _ _ _ _ (grad_reach_inv _ _ _ _ _ _ Hreach)) (also_self _ _) (also_apart _ _ _ Hcol) Hr Hn) as (c' & E & _).
  assert (Hfin : grad_fin F O e X t = true <-> (forall r, r < m_ncols X -> finite_at F O e X t r = true)
                               /\ (forall i, t = TConst i -> ffinite F (const_at F e i) = true)).
  { rewrite grad_fin_rows.
    assert (root_fin F e t = true <-> forall i, t = TConst i -> ffinite F (const_at F e i) = true); [|tauto].
    apply root_fin_iff. }
  unfold expected_grad in E. destruct (kstop o (grad_fin F O e X t)) eqn:Ek.
  - do 4 eexists. split; [exact E|]. rewrite fill_length. unfold kstop in Ek.
    destruct (check_finite o), (early_exit o), (grad_fin F O e X t); try discriminate.
    cbn [m_nrows m_ncols]. split; auto. split; auto. split; auto. split; [unfold mat_ok; cbn; apply fill_length|].
    split; [discriminate|]. split; [intros _; split; [discriminate|intros H; apply Hfin in H; discriminate]|].
    intros [H|H]; discriminate.
  - do 4 eexists. split; [exact E|]. rewrite tab_length. cbn [m_nrows m_ncols m_data].
    split; auto. split; auto. split; auto. split; [unfold mat_ok; cbn; apply gflat_length|].
    unfold kflag, kstop in *.
    split; [intros ->; reflexivity|]. split; [intros ->; cbn; exact Hfin|].
    intros _ r Hr'. rewrite tab_nth by auto. split; auto. intros d Hd. now apply gflat_nth.
Qed.

(** In exact arithmetic: component [d] is the derivative in direction [d] (features), and the textbook
    derivative in either case. *)
Theorem C09_gradient_is_derivative : forall (T : Type) (F : FloatOps T) (O : OpSet T) (e : expr T) (X : matrix T) t d r,
  ZeroLaws F ->
  grad_comp F O e X true t d r = der_at F O e X d t r
  /\ grad_comp F O e X true t d r = textbook_der F O (mat_at F X r) (const_at F e) (one_hot F d) (no_seed F) t
  /\ grad_comp F O e X false t d r = textbook_der F O (mat_at F X r) (const_at F e) (no_seed F) (one_hot F d) t.
Proof. intros. unfold grad_comp, der_at. rewrite !tder_exact by auto. auto. Qed.

(** Without the premise on the hash: the gradient is still computed, of [e] or else of a formula of [Seen] that the hash confuses with [e], with the constants
    of [e]. *)
Theorem C09_collision : forall (T : Type) (F : FloatOps T) (O : OpSet T) hash D (e : expr T) (X : matrix T) (t : tree) (o : eopts) (c : dctx T) variable (Seen : list pnode -> Prop),
  ok_tree O D e X t -> mat_ok X -> fits_u16 e X t -> 1 <= m_ncols X -> d_rows c = m_ncols X ->
  grad_reach F O hash D Seen c -> Seen (nodes e) -> (forall ns, Seen ns -> sane O ns) ->
  exists c' ns0 t0, (ns0 = nodes e \/ (Seen ns0 /\ hash ns0 = hash (nodes e) /\ List.length ns0 = List.length (nodes e)))
    /\ ok_tree O D (swap e ns0) X t0
    /\ eval_grad_tree_array F O hash D e X variable c o = Ok (c', expected_grad F O (swap e ns0) X variable t0 o).
Proof.
  intros T F O hash D e X t o c variable Seen Hok HX Hf Hn Hr Hreach Hse Hsane.
  destruct (eval_grad_any F O hash D Seen e X t o c variable Hok HX Hf (grad_reach_inv _ _ _ _ _ _ Hreach) Hse Hsane Hr Hn) as (c' & ns0 & t0 & E & H1 & H2 & _). eauto 10.
Qed.

Example C09_case :
  let c := dctx_new zops 2 in
  let hash := hash_at (nodes ex_expr) in
  (exists c', eval_grad_tree_array zops (rational_ops zops) hash 2 ex_expr ex_data true c (mkOpts true true)
              = Ok (c', ([13; 24]%Z, mkMat [10; 10; 1; 1]%Z 2 2, true)))
  /\ (exists c', eval_grad_tree_array zops (rational_ops zops) hash 2 ex_expr ex_data false c (mkOpts true true)
              = Ok (c', ([13; 24]%Z, mkMat [1; 2]%Z 1 2, true)))
  /\ grad_reach zops (rational_ops zops) hash 2 (fun _ => True) c /\ told_apart hash (fun _ => True) (nodes ex_expr).
Proof.
  cbn zeta. split; [eexists; vm_compute; reflexivity|]. split; [eexists; vm_compute; reflexivity|]. split; [constructor|].
  apply hash_at_told_apart.
Qed.

(** In floating point the two entry points disagree: x0/x1 in direction x2 with x1 = 2^-600 is NaN for
    [eval_diff_tree_array] (0/y + (-x/(y*y))*0 with y*y = 0) and 0 for [eval_grad_tree_array]. *)
Theorem C09_float_agreement_refuted : exists (e : expr spec_float) X t c1 c2 vals g,
  ok_tree (rational_ops f64ops) 2 e X t /\ mat_ok X /\ fits_u16 e X t /\ 1 <= m_ncols X
  /\ eval_diff_tree_array f64ops (rational_ops f64ops) hash0 2 e X 2 (dctx_new f64ops 1) (mkOpts true true)
     = Ok (c1, (vals, [S754_nan], true))
  /\ eval_grad_tree_array f64ops (rational_ops f64ops) hash0 2 e X true (dctx_new f64ops 1) (mkOpts true true)
     = Ok (c2, (vals, g, true))
  /\ nth_error (m_data g) 2 = Some (S754_zero false).
Proof.
  exists (mkExpr [Var 0; Var 1; Op 2 2] [] []), (mkMat [f64lit 1 0; f64lit 1 (-600); f64lit 1 0] 3 1), (TOp 2 [TVar 0; TVar 1]).
  do 4 eexists. assert (3 <= u16_max) by (unfold u16_max; lia).
  split; [repeat split; cbn; auto with arith|]. split; [reflexivity|].
  split; [repeat split; cbn; auto with arith; lia|]. split; [cbn; lia|].
  split; [vm_compute; reflexivity|]. split; [vm_compute; reflexivity|]. reflexivity.
Qed.

(** With no rows the gradient of a bare variable panics ([chunks_mut(0)]), while evaluation does not. *)
Theorem C09_zero_rows_refuted : exists (e : expr Z) X,
  ok_tree (rational_ops zops) 2 e X (TVar 0) /\ mat_ok X /\ fits_u16 e X (TVar 0)
  /\ eval_grad_tree_array zops (rational_ops zops) hash0 2 e X true (dctx_new zops 0) (mkOpts true true) = Panic
  /\ eval_tree_array zops (rational_ops zops) hash0 2 e X (mkOpts true true) = Ok ([], true).
Proof.
  exists (mkExpr [Var 0] [] []), (mkMat [] 1 0). assert (1 <= u16_max) by (unfold u16_max; lia).
  split; [repeat split; cbn; auto with arith|]. split; [reflexivity|].
  split; [repeat split; cbn; auto with arith|]. split; reflexivity.
Qed.

Print Assumptions C01_valid_postfix_exact.
Print Assumptions C02_subtree_ranges.
Print Assumptions C02_child_ranges.
Print Assumptions C03_tree_fold.
Print Assumptions C03_panics_exactly.
Print Assumptions C03_count_depth.
Print Assumptions C03_counts.
Print Assumptions C04_compiled_eval.
Print Assumptions C05_plan_sound.
Print Assumptions C05_slots_by_depth.
Print Assumptions C06_flag_exact.
Print Assumptions C06_complete_output_finite.
Print Assumptions C06_bare_variable_refuted.
Print Assumptions C06_zero_rows_refuted.
Print Assumptions C07_context_reuse.
Print Assumptions C07_same_as_fresh_array.
Print Assumptions C07_collision_refuted.
Print Assumptions C08_forward_derivative.
Print Assumptions C08_chain_rule.
Print Assumptions C09_gradient.
Print Assumptions C09_collision.
Print Assumptions C09_gradient_is_derivative.
Print Assumptions C09_float_agreement_refuted.
Print Assumptions C09_zero_rows_refuted.
