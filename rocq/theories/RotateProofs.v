(** Proof support for child ranges, rotation and the inversion of literal trees. *)
From Verif Require Import Base BaseLemmas Node Tree NodeProofs SpanProofs Utils UtilsProofs PropUtils Rng Registry PropRegistry Lit Mutation MutationProofs.

Lemma subtree_at_fun t i s s' : subtree_at t i s -> subtree_at t i s' -> s = s'.
Proof.
  intros H1 H2. apply subtree_at_spec in H1 as [E1 (l1 & r1 & F1 & L1)]. apply subtree_at_spec in H2 as [E2 (l2 & r2 & F2 & L2)].
  assert (Es : tsize s = tsize s') by congruence. apply flatten_inj.
  assert (H : firstn (tsize s) (skipn (List.length l1) (flatten t)) = flatten s).
  { rewrite F1, skipn_app, skipn_all2, Nat.sub_diag by lia. cbn. rewrite <- flatten_length, firstn_app, Nat.sub_diag, firstn_all. cbn. apply app_nil_r. }
  assert (H' : firstn (tsize s') (skipn (List.length l2) (flatten t)) = flatten s').
  { rewrite F2, skipn_app, skipn_all2, Nat.sub_diag by lia. cbn. rewrite <- flatten_length, firstn_app, Nat.sub_diag, firstn_all. cbn. apply app_nil_r. }
  rewrite <- H, <- H'. replace (List.length l2) with (List.length l1) by lia. now rewrite Es.
Qed.

(** Inverting [lit]. *)
Lemma map_app_inv {A B} (f : A -> B) l : forall a c b, map f l = a ++ c :: b -> exists l1 x l2, l = l1 ++ x :: l2 /\ map f l1 = a /\ f x = c /\ map f l2 = b.
Proof.
  induction l as [|x l IH]; intros [|y a] c b H; try discriminate; cbn in H.
  - injection H as H1 H2. exists [], x, l. auto.
  - injection H as H1 H2. destruct (IH _ _ _ H2) as (l1 & z & l2 & -> & E1 & E2 & E3). exists (x :: l1), z, l2. cbn. rewrite H1, E1. auto.
Qed.

Lemma lit_plug_inv {T} (c : nat -> T) C : forall t y, lit c t = xplug C y ->
  exists C' s, t = tplug C' s /\ map_ctx (lit c) C' = C /\ lit c s = y.
Proof.
  induction C as [|op l C IH r]; intros t y H; cbn [plug] in H.
  - exists Hole, t. auto.
  - destruct t as [f|i|op' cs]; cbn in H; try discriminate. injection H as -> H.
    apply map_app_inv in H as (l1 & s & l2 & -> & E1 & E2 & E3). destruct (IH _ _ E2) as (C' & s' & -> & F1 & F2).
    exists (CNode op l1 C' l2), s'. cbn. rewrite E1, E3, F1. auto.
Qed.

(** The flags of the children that are operators. *)
Definition is_top (t : tree) : bool := match t with TOp _ _ => true | _ => false end.

Lemma is_op_root s : is_op (root_node s) = is_top s.
Proof. destruct s; reflexivity. Qed.

Lemma op_children_ok t st cs : (forall l c r, cs = l ++ c :: r -> subtree_at t (st + sum_list (map tsize l) + tsize c - 1) c) ->
  op_children (flatten t) (spans st cs) = Ok (map is_top cs).
Proof.
  revert st. induction cs as [|c cs IH]; intros st H; [reflexivity|].
  unfold op_children in *. cbn [spans mapM snd]. pose proof (H [] c cs eq_refl) as Hc. cbn in Hc. rewrite Nat.add_0_r in Hc.
  unfold index at 1. rewrite (subtree_at_root _ _ _ Hc). cbn [expect bind]. rewrite is_op_root.
  rewrite IH; [reflexivity|]. intros l c' r ->. specialize (H (c :: l) c' r eq_refl). cbn [map sum_list] in H.
  replace (st + (tsize c + sum_list (map tsize l))) with (st + tsize c + sum_list (map tsize l)) in H by lia. exact H.
Qed.

Lemma op_children_at t i op cs : subtree_at t i (TOp op cs) ->
  op_children (flatten t) (spans (i + 1 - tsize (TOp op cs)) cs) = Ok (map is_top cs).
Proof. intros H. apply op_children_ok. intros l c r ->. apply subtree_at_child. exact H. Qed.

Lemma valid_roots_ok t is_ : forall acc, (forall i, In i is_ -> i < tsize t) ->
  exists rs, valid_roots_loop (flatten t) (tsizes t) is_ acc = Ok (acc ++ rs)
    /\ forall i, In i rs <-> In i is_ /\ exists op l p ps r, subtree_at t i (TOp op (l ++ TOp p ps :: r)).
Proof.
  induction is_ as [|i is_ IH]; intros acc H; cbn [valid_roots_loop].
  - exists []. rewrite app_nil_r. split; auto. intros i. cbn. tauto.
  - destruct (subtree_at_exists t i) as [s Hs]; [apply H; left; auto|].
    unfold index. rewrite (subtree_at_root _ _ _ Hs). cbn [expect bind].
    assert (Hskip : (forall op l p ps r, s <> TOp op (l ++ TOp p ps :: r)) ->
      exists rs, valid_roots_loop (flatten t) (tsizes t) is_ acc = Ok (acc ++ rs)
      /\ forall j, In j rs <-> In j (i :: is_) /\ exists op l p ps r, subtree_at t j (TOp op (l ++ TOp p ps :: r))).
    { intros Hno. destruct (IH acc) as (rs & E & Hrs); [intros; apply H; right; auto|]. exists rs. split; auto.
      intros j. rewrite Hrs. cbn. split; [tauto|]. intros [[<-|Hj] Hx]; auto. exfalso.
      destruct Hx as (op & l & p & ps & r & Hx). apply (Hno op l p ps r). eapply subtree_at_fun; eauto. }
    destruct s as [f|k|op cs]; cbn [root_node]; [apply Hskip; congruence|apply Hskip; congruence|].
    destruct (Nat.eqb_spec (List.length cs) 0) as [E0|Hne].
    { apply Hskip. intros op' l p ps r E. injection E as _ ->. rewrite app_length in E0. cbn in E0. lia. }
    rewrite (child_ranges_flatten _ _ _ _ Hs). cbn [bind]. rewrite (op_children_at _ _ _ _ Hs). cbn [bind].
    destruct (existsb (fun b => b) (map is_top cs)) eqn:Ex.
    + destruct (IH (acc ++ [i])) as (rs & E & Hrs); [intros; apply H; right; auto|]. exists (i :: rs). rewrite E, <- app_assoc. split; auto.
      intros j. cbn. rewrite Hrs. split; [|tauto]. intros [<-|Hj]; [|tauto]. split; auto.
      apply existsb_exists in Ex as (b & Hb & ->). apply in_map_iff in Hb as (c & Hc & Hin). apply in_split in Hin as (l & r & ->).
      destruct c as [|?|p ps]; try discriminate. exists op, l, p, ps, r. auto.
    + apply Hskip. intros op' l p ps r E. injection E as _ ->.
      assert (existsb (fun b => b) (map is_top (l ++ TOp p ps :: r)) = true).
      { apply existsb_exists. exists true. split; auto. rewrite map_app. apply in_or_app. right. left. auto. }
      congruence.
Qed.

Lemma true_positions_in bs j : In j (true_positions bs) <-> nth_error bs j = Some true.
Proof.
  unfold true_positions. rewrite filter_In, in_seq. split.
  - intros [H1 H2]. rewrite (nth_error_nth' bs false) by lia. congruence.
  - intros H. split; [|now rewrite (nth_error_nth bs j false H)]. split; [lia|]. apply nth_error_Some. congruence.
Qed.

Lemma concat_children_all ns x p : forall cs pre j post st, ns = pre ++ flat_map flatten cs ++ post -> st = List.length pre -> p < j ->
  concat_children ns (spans st cs) j p x = Ok (flat_map flatten cs).
Proof.
  induction cs as [|c cs IH]; intros pre j post st E Hst Hj; cbn [concat_children spans]; auto.
  destruct (Nat.eqb_spec j p); [lia|]. cbn [flat_map] in *. rewrite <- app_assoc in E. cbn [fst snd].
  pose proof (tsize_pos c). pose proof (flatten_length c) as L.
  rewrite E at 1. rewrite slice_incl_mid; [|now subst st|lia]. cbn [bind].
  rewrite (IH (pre ++ flatten c) (S j) post); [reflexivity| | |lia].
  - rewrite E. now rewrite <- app_assoc.
  - rewrite app_length. lia.
Qed.

Lemma concat_children_split ns x : forall l c r pre j p post st, ns = pre ++ flat_map flatten (l ++ c :: r) ++ post -> st = List.length pre ->
  p = j + List.length l ->
  concat_children ns (spans st (l ++ c :: r)) j p x = Ok (flat_map flatten l ++ x ++ flat_map flatten r).
Proof.
  induction l as [|c0 l IH]; intros c r pre j p post st E Hst Hp; cbn [app concat_children spans flat_map List.length] in *.
  - replace (j =? p) with true by (symmetry; apply Nat.eqb_eq; lia). cbn [bind].
    rewrite <- app_assoc in E.
    rewrite (concat_children_all ns x p r (pre ++ flatten c) (S j) post); [reflexivity| | |lia].
    + rewrite E. now rewrite <- app_assoc.
    + rewrite app_length, flatten_length. lia.
  - replace (j =? p) with false by (symmetry; apply Nat.eqb_neq; lia). rewrite <- app_assoc in E. cbn [fst snd].
    pose proof (tsize_pos c0). pose proof (flatten_length c0) as L.
    rewrite E at 1. rewrite slice_incl_mid; [|now subst st|lia]. cbn [bind].
    rewrite (IH c r (pre ++ flatten c0) (S j) p post); [cbn [bind]; now rewrite <- app_assoc| | |lia].
    + rewrite E. now rewrite <- app_assoc.
    + rewrite app_length. lia.
Qed.
