(** Proofs about the node utilities. *)
From Verif Require Import Base BaseLemmas Node Tree.

Lemma popn_app {R} (l st : list R) :
  popn (List.length l) (rev l ++ st) = Some (l, st).
Proof.
  unfold popn. rewrite app_length, rev_length.
  destruct (Nat.leb_spec (List.length l) (List.length l + List.length st)); [|lia].
  rewrite firstn_app, skipn_app, rev_length, Nat.sub_diag. cbn [firstn skipn].
  rewrite app_nil_r. rewrite firstn_all2 by (rewrite rev_length; lia).
  rewrite skipn_all2 by (rewrite rev_length; lia). cbn. now rewrite rev_involutive.
Qed.

Lemma popn_inv {R} a (st args rest : list R) :
  popn a st = Some (args, rest) -> st = rev args ++ rest /\ List.length args = a.
Proof.
  unfold popn. destruct (Nat.leb_spec a (List.length st)); intros E; try discriminate.
  injection E as <- <-. rewrite rev_involutive, firstn_skipn, rev_length, firstn_length.
  split; [reflexivity|lia].
Qed.

Lemma popn_none {R} a (st : list R) : popn a st = None <-> List.length st < a.
Proof. unfold popn. destruct (Nat.leb_spec a (List.length st)); split; intros; try discriminate; try lia; auto. Qed.

Section Fold.
  Context {R B : Type} (fl : pnode -> R) (fb : pnode -> B) (op : B -> list R -> R).

  Lemma mapreduce_flatten t : forall rest st,
    foldM (mapreduce_step fl fb op) (flatten t ++ rest) st
    = foldM (mapreduce_step fl fb op) rest (tree_fold fl fb op t :: st).
  Proof.
    induction t as [f|i|o cs IH] using tree_ind'; intros rest st; try reflexivity.
    cbn [flatten]. rewrite <- app_assoc.
    assert (Hcs : forall st rest', foldM (mapreduce_step fl fb op) (flat_map flatten cs ++ rest') st
             = foldM (mapreduce_step fl fb op) rest' (rev (map (tree_fold fl fb op) cs) ++ st)).
    { clear rest st. induction IH as [|c cs Hc _ IHcs]; intros st rest'; [reflexivity|].
      cbn [flat_map map rev]. rewrite <- app_assoc, Hc, IHcs, <- app_assoc. reflexivity. }
    rewrite Hcs. cbn [app foldM mapreduce_step].
    replace (List.length cs) with (List.length (map (tree_fold fl fb op) cs)) by apply map_length.
    rewrite popn_app. cbn [bind tree_fold]. rewrite map_length. reflexivity.
  Qed.

  Lemma tree_mapreduce_impl_flatten t :
    tree_mapreduce_impl fl fb op (flatten t) [] = Ok (tree_fold fl fb op t).
  Proof.
    unfold tree_mapreduce_impl. rewrite <- (app_nil_r (flatten t)), mapreduce_flatten. reflexivity.
  Qed.
End Fold.

(** Rebuilding the tree is a fold. *)
Definition leaf_tree (n : pnode) : tree :=
  match n with Var f => TVar f | Const i => TConst i | Op _ o => TOp o [] end.
Definition node_op (n : pnode) : nat := match n with Op _ o => o | _ => 0 end.
Definition build_step := mapreduce_step leaf_tree node_op TOp.

Lemma build_id t : tree_fold leaf_tree node_op TOp t = t.
Proof.
  induction t as [f|i|o cs IH] using tree_ind'; cbn; auto.
  f_equal. induction IH as [|c cs Hc _ IHcs]; cbn; congruence.
Qed.

Lemma flatten_inj t1 t2 : flatten t1 = flatten t2 -> t1 = t2.
Proof.
  intros H.
  assert (H1 := tree_mapreduce_impl_flatten leaf_tree node_op TOp t1).
  assert (H2 := tree_mapreduce_impl_flatten leaf_tree node_op TOp t2).
  rewrite H, H2, !build_id in H1. congruence.
Qed.

Lemma flat_map_app' {A B} (f : A -> list B) l1 l2 :
  flat_map f (l1 ++ l2) = flat_map f l1 ++ flat_map f l2.
Proof. induction l1; cbn; [reflexivity|]. now rewrite IHl1, app_assoc. Qed.

Lemma build_sound ns : forall st st',
  foldM build_step ns st = Ok st' ->
  flat_map flatten (rev st') = flat_map flatten (rev st) ++ ns.
Proof.
  induction ns as [|n ns IH]; cbn [foldM]; intros st st' H.
  - injection H as <-. now rewrite app_nil_r.
  - apply bind_ok in H as (s1 & Hs & H). apply IH in H. rewrite H.
    destruct n as [f|i|a o]; cbn in Hs.
    + injection Hs as <-. cbn [rev]. rewrite flat_map_app'. cbn. now rewrite <- !app_assoc.
    + injection Hs as <-. cbn [rev]. rewrite flat_map_app'. cbn. now rewrite <- !app_assoc.
    + destruct (popn a st) as [[args rest]|] eqn:E; try discriminate. injection Hs as <-.
      apply popn_inv in E as [-> <-]. cbn [rev].
      rewrite rev_app_distr, rev_involutive, !flat_map_app'. cbn [flat_map flatten node_op].
      rewrite app_nil_r, <- !app_assoc. reflexivity.
Qed.

Lemma valid_flatten t : proper t -> forall rest k, (0 <= k)%Z ->
  valid_postfix_from (flatten t ++ rest) k = valid_postfix_from rest (k + 1).
Proof.
  induction t as [f|i|o cs IH] using tree_ind'; intros Hp rest k Hk; try reflexivity.
  cbn [flatten]. rewrite <- app_assoc. destruct Hp as [Hne Hcs].
  apply fold_right_and_Forall in Hcs.
  assert (Hgo : forall rest k, (0 <= k)%Z ->
     valid_postfix_from (flat_map flatten cs ++ rest) k
     = valid_postfix_from rest (k + Z.of_nat (List.length cs))).
  { clear Hne rest k Hk. induction IH as [|c cs Hc _ IHcs]; intros rest k Hk.
    - cbn. f_equal; lia.
    - inversion Hcs; subst. cbn [flat_map]. rewrite <- app_assoc, Hc, IHcs by (auto; lia).
      f_equal. cbn [List.length]. lia. }
  rewrite Hgo by lia. cbn [app valid_postfix_from].
  assert (0 < List.length cs) by (destruct cs; cbn; [congruence|lia]).
  destruct (Z.leb_spec (Z.of_nat (List.length cs)) 0); [lia|].
  destruct (Z.ltb_spec (k + Z.of_nat (List.length cs)) (Z.of_nat (List.length cs))); [lia|].
  f_equal; lia.
Qed.

Lemma valid_build ns : forall st,
  Forall proper st ->
  valid_postfix_from ns (Z.of_nat (List.length st)) = true ->
  exists t, foldM build_step ns st = Ok [t] /\ proper t.
Proof.
  induction ns as [|n ns IH]; intros st Hp H; cbn [foldM].
  - cbn in H. apply Z.eqb_eq in H. destruct st as [|t [|]]; cbn [List.length] in H; try lia.
    exists t; split; auto. inversion Hp; auto.
  - destruct n as [f|i|a o]; cbn [valid_postfix_from] in H; cbn [build_step mapreduce_step].
    + apply (IH (TVar f :: st)); [repeat constructor; auto|].
      cbn [List.length]. now rewrite Nat2Z.inj_succ.
    + apply (IH (TConst i :: st)); [repeat constructor; auto|].
      cbn [List.length]. now rewrite Nat2Z.inj_succ.
    + destruct (Z.leb_spec (Z.of_nat a) 0); try discriminate.
      destruct (Z.ltb_spec (Z.of_nat (List.length st)) (Z.of_nat a)); try discriminate.
      destruct (popn a st) as [[args rest]|] eqn:E; [|apply popn_none in E; lia].
      pose proof E as E'. apply popn_inv in E' as [Hst Hlen].
      cbn [bind].
      apply (IH (TOp o args :: rest)).
      * rewrite Hst in Hp. apply Forall_app in Hp as [Hp1 Hp2]. constructor; auto.
        cbn. split; [destruct args; cbn in *; [lia|congruence]|].
        apply fold_right_and_Forall. apply Forall_rev in Hp1. now rewrite rev_involutive in Hp1.
      * rewrite <- H. f_equal. rewrite Hst, app_length, rev_length in *. cbn [List.length]. lia.
Qed.

Lemma is_valid_postfix_iff ns :
  is_valid_postfix ns = true <-> exists t, proper t /\ ns = flatten t.
Proof.
  split.
  - intros H. unfold is_valid_postfix in H.
    destruct (valid_build ns [] (Forall_nil _) H) as (t & Hb & Hp).
    exists t. split; auto. apply build_sound in Hb. cbn in Hb. rewrite app_nil_r in Hb. auto.
  - intros (t & Hp & ->). unfold is_valid_postfix.
    rewrite <- (app_nil_r (flatten t)), valid_flatten by (auto; lia). reflexivity.
Qed.

(** Success of the generic fold depends only on the node list. *)
Lemma mapreduce_length {R B R' B'} (fl : pnode -> R) (fb : pnode -> B) op (fl' : pnode -> R') (fb' : pnode -> B') op' ns :
  forall st (st' : list R') s, List.length st = List.length st' ->
  foldM (mapreduce_step fl fb op) ns st = Ok s ->
  exists s', foldM (mapreduce_step fl' fb' op') ns st' = Ok s' /\ List.length s = List.length s'.
Proof.
  induction ns as [|n ns IH]; intros st st' s Hl H; cbn [foldM] in *.
  - injection H as <-. eauto.
  - apply bind_ok in H as (s1 & H1 & H2).
    assert (exists s1', mapreduce_step fl' fb' op' st' n = Ok s1' /\ List.length s1 = List.length s1') as (s1' & -> & Hl').
    { destruct n as [f|i|a o]; cbn in *.
      - injection H1 as <-. eexists; split; [reflexivity|]; cbn; lia.
      - injection H1 as <-. eexists; split; [reflexivity|]; cbn; lia.
      - destruct (popn a st) as [[args rest]|] eqn:E; try discriminate. injection H1 as <-.
        apply popn_inv in E as [-> <-]. rewrite app_length, rev_length in Hl.
        destruct (popn (List.length args) st') as [[args' rest']|] eqn:E'; [|apply popn_none in E'; lia].
        eexists; split; [reflexivity|]. apply popn_inv in E' as [-> Ha].
        rewrite app_length, rev_length in Hl. cbn. lia. }
    cbn [bind]. eauto.
Qed.

Lemma mapreduce_ok_iff {R B} (fl : pnode -> R) (fb : pnode -> B) op ns :
  is_ok (tree_mapreduce_impl fl fb op ns []) <-> exists t, ns = flatten t.
Proof.
  split.
  - intros [r H]. unfold tree_mapreduce_impl in H. apply bind_ok in H as (s & H1 & H2).
    destruct (mapreduce_length fl fb op leaf_tree node_op TOp ns [] [] s eq_refl H1) as (s' & Hs' & Hl).
    destruct s as [|? [|]]; try discriminate. destruct s' as [|t [|]]; try discriminate.
    exists t. apply build_sound in Hs'. cbn in Hs'. rewrite app_nil_r in Hs'. auto.
  - intros [t ->]. eexists. apply tree_mapreduce_impl_flatten.
Qed.

Lemma mapreduce_never_fuel {R B} (fl : pnode -> R) (fb : pnode -> B) op ns st :
  foldM (mapreduce_step fl fb op) ns st <> OutOfFuel.
Proof.
  revert st; induction ns as [|n ns IH]; intros st; cbn; [discriminate|].
  destruct n as [f|i|a o]; cbn; auto. destruct (popn a st) as [[]|]; cbn; auto. discriminate.
Qed.

Lemma count_depth_flatten stale t : count_depth stale (flatten t) = Ok (tdepth t).
Proof.
  unfold count_depth, tree_mapreduce_with_stack. rewrite tree_mapreduce_impl_flatten. f_equal.
  induction t as [f|i|o cs IH] using tree_ind'; cbn [tree_fold tdepth]; auto.
  unfold list_max0. rewrite list_max0_fold. rewrite Nat.add_comm. f_equal.
  rewrite Nat.max_0_l. f_equal. apply map_ext_in. rewrite Forall_forall in IH. exact IH.
Qed.

Lemma flatten_length t : List.length (flatten t) = tsize t.
Proof.
  induction t as [f|i|o cs IH] using tree_ind'; cbn; auto.
  rewrite app_length. cbn. rewrite Nat.add_1_r. f_equal.
  induction IH as [|c cs Hc _ IHcs]; cbn; auto. rewrite app_length. lia.
Qed.

Lemma flat_map_flatten_length cs : List.length (flat_map flatten cs) = sum_list (map tsize cs).
Proof. induction cs as [|c cs IH]; cbn; auto. rewrite app_length, flatten_length. lia. Qed.

Lemma tsize_pos t : 1 <= tsize t.
Proof. destruct t; cbn; lia. Qed.

Lemma flatten_last t : exists l, flatten t = l ++ [root_node t].
Proof. destruct t as [f|i|o cs]; cbn; [exists []|exists []|eexists]; reflexivity. Qed.

(** Subtree sizes. *)
Fixpoint tsizes (t : tree) : list nat :=
  match t with
  | TVar _ | TConst _ => [1]
  | TOp _ cs => flat_map tsizes cs ++ [tsize t]
  end.

Lemma tsizes_length t : List.length (tsizes t) = tsize t.
Proof.
  induction t as [f|i|o cs IH] using tree_ind'; cbn [tsizes]; auto.
  rewrite app_length. cbn. rewrite Nat.add_1_r. f_equal.
  induction IH as [|c cs Hc _ IHcs]; cbn; auto. rewrite app_length. lia.
Qed.

Lemma pop_sum_app l st s :
  pop_sum (List.length l) (rev l ++ st) s = Ok (s + sum_list l, st).
Proof.
  rewrite <- (rev_length l).
  assert (H : forall l s, pop_sum (List.length l) (l ++ st) s = Ok (s + sum_list l, st)).
  { clear. induction l as [|x l IH]; intros s; cbn; [f_equal; f_equal; lia|].
    rewrite IH. f_equal; f_equal; lia. }
  rewrite H. do 2 f_equal. f_equal.
  induction l as [|x l IH]; cbn; auto.
  assert (Ha : forall a b, sum_list (a ++ b) = sum_list a + sum_list b).
  { induction a; cbn; intros; auto. rewrite IHa; lia. }
  rewrite Ha, IH. cbn. lia.
Qed.

Lemma sizes_flatten t : forall rest sz st,
  foldM sizes_step (flatten t ++ rest) (sz, st)
  = foldM sizes_step rest (sz ++ tsizes t, tsize t :: st).
Proof.
  induction t as [f|i|o cs IH] using tree_ind'; intros rest sz st; try reflexivity.
  cbn [flatten]. rewrite <- app_assoc.
  assert (Hcs : forall sz st rest', foldM sizes_step (flat_map flatten cs ++ rest') (sz, st)
     = foldM sizes_step rest' (sz ++ flat_map tsizes cs, rev (map tsize cs) ++ st)).
  { clear rest sz st. induction IH as [|c cs Hc _ IHcs]; intros sz st rest'.
    - cbn. now rewrite app_nil_r.
    - cbn [flat_map map rev]. rewrite <- app_assoc, Hc, IHcs, <- !app_assoc. reflexivity. }
  rewrite Hcs. cbn [app foldM sizes_step].
  replace (List.length cs) with (List.length (map tsize cs)) by apply map_length.
  rewrite pop_sum_app. cbn [bind tsizes]. rewrite <- app_assoc. reflexivity.
Qed.

Lemma subtree_sizes_flatten t : subtree_sizes (flatten t) = Ok (tsizes t).
Proof.
  unfold subtree_sizes. rewrite <- (app_nil_r (flatten t)), sizes_flatten. reflexivity.
Qed.

Lemma sum_list_app a b : sum_list (a ++ b) = sum_list a + sum_list b.
Proof. induction a; cbn; intros; auto. rewrite IHa; lia. Qed.

Lemma flat_map_tsizes_length cs : List.length (flat_map tsizes cs) = sum_list (map tsize cs).
Proof. induction cs as [|c cs IH]; cbn; auto. rewrite app_length, tsizes_length. lia. Qed.

Lemma subtree_at_lt t i s : subtree_at t i s -> i < tsize t.
Proof.
  induction 1 as [t|op l c r i s H IH].
  - pose proof (tsize_pos t); lia.
  - cbn. rewrite map_app, sum_list_app. cbn. lia.
Qed.

Lemma subtree_at_sub t i s : subtree_at t i s -> subtree s t.
Proof.
  induction 1 as [t|op l c r i s H IH]; [constructor|].
  apply sub_child with c; auto. apply in_or_app; right; left; auto.
Qed.

Lemma subtree_at_spec t i s : subtree_at t i s ->
  nth_error (tsizes t) i = Some (tsize s)
  /\ exists l r, flatten t = l ++ flatten s ++ r /\ List.length l + tsize s = i + 1.
Proof.
  induction 1 as [t|op l c r i s H [IH1 (pl & pr & IH2 & IH3)]].
  - split.
    + destruct t as [f|j|o cs]; try reflexivity.
      cbn [tsizes]. replace (tsize (TOp o cs) - 1) with (List.length (flat_map tsizes cs))
        by (rewrite flat_map_tsizes_length; cbn; lia).
      rewrite nth_error_app2, Nat.sub_diag by lia. reflexivity.
    + exists [], []. rewrite app_nil_r. pose proof (tsize_pos t). cbn. split; auto. lia.
  - pose proof (subtree_at_lt _ _ _ H) as Hlt. split.
    + cbn [tsizes]. rewrite flat_map_app'. cbn [flat_map].
      rewrite <- app_assoc.
      rewrite nth_error_app2 by (rewrite flat_map_tsizes_length; lia).
      rewrite flat_map_tsizes_length. replace (_ + i - _) with i by lia.
      rewrite <- app_assoc, nth_error_app1 by (rewrite tsizes_length; lia). exact IH1.
    + exists (flat_map flatten l ++ pl), (pr ++ flat_map flatten r ++ [Op (List.length (l ++ c :: r)) op]).
      cbn [flatten]. rewrite flat_map_app'. cbn [flat_map]. rewrite IH2, <- !app_assoc. split; auto.
      rewrite app_length, flat_map_flatten_length. lia.
Qed.

Lemma subtree_at_exists t i : i < tsize t -> exists s, subtree_at t i s.
Proof.
  revert i; induction t as [f|j|o cs IH] using tree_ind'; intros i Hi.
  - cbn in Hi. exists (TVar f). replace i with (tsize (TVar f) - 1) by (cbn; lia). constructor.
  - cbn in Hi. exists (TConst j). replace i with (tsize (TConst j) - 1) by (cbn; lia). constructor.
  - destruct (Nat.eq_dec i (tsize (TOp o cs) - 1)) as [->|Hne]; [eexists; constructor|].
    assert (Hlt : i < sum_list (map tsize cs)) by (cbn in *; lia). clear Hi Hne.
    assert (exists l c r k, cs = l ++ c :: r /\ i = sum_list (map tsize l) + k /\ k < tsize c) as (l & c & r & k & -> & -> & Hk).
    { clear IH. revert i Hlt. induction cs as [|c cs IHcs]; cbn; intros i Hlt; [lia|].
      destruct (Nat.lt_ge_cases i (tsize c)).
      - exists [], c, cs, i. cbn. auto.
      - destruct (IHcs (i - tsize c)) as (l & c' & r & k & -> & Hi & Hk); [lia|].
        exists (c :: l), c', r, k. cbn. repeat split; auto. lia. }
    apply Forall_app in IH as [_ IH]. inversion IH as [|? ? IHc ?]; subst.
    destruct (IHc k Hk) as [s Hs]. exists s. constructor; auto.
Qed.

Lemma subtree_at_fun t i s1 s2 : subtree_at t i s1 -> subtree_at t i s2 -> s1 = s2.
Proof.
  intros H1 H2. apply subtree_at_spec in H1 as [A1 (l1 & r1 & B1 & C1)].
  apply subtree_at_spec in H2 as [A2 (l2 & r2 & B2 & C2)].
  rewrite A1 in A2. injection A2 as Hs. apply flatten_inj.
  rewrite B1 in B2. assert (Hl : List.length l1 = List.length l2) by lia.
  assert (l1 = l2 /\ flatten s1 ++ r1 = flatten s2 ++ r2) as [_ E].
  { clear -B2 Hl. revert l2 B2 Hl; induction l1 as [|x l1 IH]; intros [|y l2] B Hl; cbn in *; try discriminate; auto.
    injection B as -> B. injection Hl as Hl. destruct (IH _ B Hl) as [-> ?]; auto. }
  assert (Hlen : List.length (flatten s1) = List.length (flatten s2)) by (rewrite !flatten_length; lia).
  clear -E Hlen. revert E Hlen. generalize (flatten s1) (flatten s2).
  induction l as [|x l IH]; intros [|y l2] B Hl; cbn in *; try discriminate; auto.
  injection B as -> B. injection Hl as Hl. f_equal; auto.
Qed.

Lemma subtree_range_flatten t i s :
  subtree_at t i s ->
  subtree_range (tsizes t) i = Ok (i + 1 - tsize s, i).
Proof.
  intros H. pose proof (subtree_at_spec _ _ _ H) as [A (l & r & B & C)].
  unfold subtree_range, index. rewrite A. cbn.
  destruct (Nat.leb_spec (tsize s) (i + 1)); [reflexivity|lia].
Qed.
