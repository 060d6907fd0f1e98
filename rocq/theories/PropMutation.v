(** Properties C18-C21: random expressions, mutations, crossover. *)
From Verif Require Import Base BaseLemmas Node Tree NodeProofs SpanProofs Utils UtilsProofs PropUtils Rng Registry PropRegistry Lit Mutation MutationProofs RotateProofs Instances.

(** ** Specification *)
(** The run-time setting: arity bound, number of features, known operators, registry. *)
Definition setting (D nf : nat) (known : nat -> nat -> bool) (reg : registry) : Prop :=
  reg_ok D known reg /\ 1 <= nf <= S u16_max /\ D <= u8_max.

(** [x'] is [x] with one subtree [s] replaced by a subtree [s'] related to it. *)
Definition one_change {T} (R : xtree T -> xtree T -> Prop) (x x' : xtree T) : Prop :=
  exists C s s', x = xplug C s /\ x' = xplug C s' /\ R s s'.

(** [x] has a subtree satisfying [P]. *)
Definition has_subtree {T} (P : xtree T -> Prop) (x : xtree T) : Prop := exists C s, x = xplug C s /\ P s.

(** A mutation succeeds or leaves the expression as it was; the result is a valid expression over the same
    operators and features, with all constant indices in range; [P] says what a success does, [N] when it may fail. *)
Definition mutates {T} (F : FloatOps T) (D nf : nat) (known : nat -> nat -> bool) (r : mutated T) (e : expr T)
    (P : expr T -> xtree T -> Prop) (N : Prop) : Prop :=
  exists b e' g' x', r = Ok (b, e', g') /\ denotes F e' x' /\ x_ok D nf known x' /\ var_names e' = var_names e
    /\ (if b then P e' x' else e' = e /\ N).

Lemma has_op_node {T} (F : FloatOps T) e (x : xtree T) (p : pnode -> bool) (P : xtree T -> Prop) :
  denotes F e x -> (forall c s, P (lit c s) -> p (root_node s) = true) ->
  positions p (nodes e) = [] -> ~ has_subtree P x.
Proof.
  intros (t & Hr & Hc & ->) HP Hn (C & y & E & Hy). apply lit_plug_inv in E as (C' & s & -> & _ & <-).
  apply HP in Hy. apply (proj1 (positions_nil _ _) Hn (root_node s)) in Hy || idtac.
  pose proof (proj1 (positions_nil _ _) Hn (root_node s)) as H. rewrite H in Hy; [discriminate|].
  unfold represents in Hr. rewrite Hr. pose proof (ctx_subtree_at C' s) as Hs. apply subtree_at_root in Hs. eapply nth_error_In; eauto.
Qed.

Ltac start e x Hd Hx t Hr Hc :=
  destruct Hd as (t & Hr & Hc & ->); unfold represents in Hr.

Lemma same_result {T} (F : FloatOps T) D nf known e g (x : xtree T) P (N : Prop) : denotes F e x -> x_ok D nf known x -> N ->
  mutates F D nf known (Ok (false, e, g)) e P N.
Proof. intros H1 H2 H3. exists false, e, g, x. auto 10. Qed.

(** ** C21 *)
Theorem C21_swap : forall (T : Type) (F : FloatOps T) D nf known (g : rng T) (e : expr T) (x : xtree T),
  denotes F e x -> x_ok D nf known x ->
  mutates F D nf known (swap_operands g e) e (fun e' x' =>
    one_change (fun s s' => exists op a b, s = XOp op [a; b] /\ s' = XOp op [b; a]) x x'
    /\ Permutation (nodes e) (nodes e') /\ consts e' = consts e)
    (~ has_subtree (fun s => exists op a b, s = XOp op [a; b]) x).
Proof.
  intros T F D nf known g e x Hd Hx. unfold swap_operands.
  destruct (positions is_binary (nodes e)) as [|i0 l0] eqn:Ep.
  { eapply same_result; [eassumption|eassumption|]. eapply has_op_node; eauto.
    intros c s (op & a & b & E). destruct s as [|?|op' cs]; try discriminate. cbn in *. injection E as -> E.
    destruct cs as [|? [|? [|? ?]]]; try discriminate. reflexivity. }
  rewrite <- Ep. start e x Hd Hx t Hr Hc. rewrite Hr. rewrite Hr in Hc.
  rewrite subtree_sizes_flatten. cbn [bind].
  destruct (pick_ok g (positions is_binary (flatten t))) as (i & g1 & E & Hi); [rewrite <- Hr, Ep; discriminate|].
  rewrite E. cbn [bind]. apply positions_in in Hi as (n & Hn & Hbin).
  destruct (node_ctx _ _ _ Hn) as (C & s & -> & Hl & Hroot & Hs).
  destruct s as [f|k|op cs]; cbn in Hroot; subst n; try discriminate. cbn in Hbin. apply Nat.eqb_eq in Hbin.
  destruct cs as [|a [|b [|? ?]]]; try discriminate.
  unfold index at 1. rewrite Hn. cbn [expect bind]. unfold subtree_range, index at 1.
  rewrite (proj1 (subtree_at_spec _ _ _ Hs)). cbn [expect bind].
  pose proof (tsize_pos a). pose proof (tsize_pos b).
  destruct (Nat.leb_spec (tsize (TOp op [a; b])) (i + 1)); [|lia]. cbn [bind].
  pose proof (child_ranges_flatten _ _ _ _ Hs) as Hcr. cbn [List.length] in Hcr. rewrite Hcr. cbn [bind spans index nth_error expect fst snd].
  assert (Est : i + 1 - tsize (TOp op [a; b]) = List.length (before C)) by lia. rewrite Est.
  assert (Ef : flatten (tplug C (TOp op [a; b])) = before C ++ flatten a ++ flatten b ++ [Op 2 op] ++ after C).
  { rewrite flatten_tplug. cbn. rewrite app_nil_r, <- !app_assoc. reflexivity. }
  pose proof (flatten_length a). pose proof (flatten_length b).
  unfold index. cbn [nth_error expect bind fst snd].
  assert (S1 : slice_incl (flatten (tplug C (TOp op [a; b]))) (List.length (before C) + tsize a) (List.length (before C) + tsize a + tsize b - 1) = Ok (flatten b)).
  { rewrite Ef, (app_assoc (before C)). apply slice_incl_mid; rewrite ?app_length; lia. }
  assert (S2 : slice_incl (flatten (tplug C (TOp op [a; b]))) (List.length (before C)) (List.length (before C) + tsize a - 1) = Ok (flatten a)).
  { rewrite Ef. apply slice_incl_mid; lia. }
  rewrite S1, S2. cbn [bind].
  assert (S3 : splice (flatten (tplug C (TOp op [a; b]))) (List.length (before C)) i (flatten b ++ flatten a ++ [Op 2 op])
    = Ok (before C ++ (flatten b ++ flatten a ++ [Op 2 op]) ++ after C)).
  { rewrite flatten_tplug. apply splice_mid; auto. rewrite flatten_length. exact Hl. }
  rewrite S3. cbn [bind].
  exists true. eexists. exists g1, (xplug (map_ctx (lit (const_at F (consts e))) C) (lit (const_at F (consts e)) (TOp op [b; a]))).
  assert (Ef' : flatten b ++ flatten a ++ [Op 2 op] = flatten (TOp op [b; a])) by (cbn; now rewrite app_nil_r, <- app_assoc).
  split; [reflexivity|]. unfold with_nodes. rewrite Ef'. cbn [nodes consts var_names].
  change (ids_below (List.length (consts e)) (flatten (tplug C (TOp op [a; b])))) in Hc.
  split. { apply (denotes_intro0 F C (TOp op [a; b])); [exact Hc|]. rewrite flatten_tplug, !ids_below_app in Hc. destruct Hc as (_ & Hc & _).
           cbn in Hc |- *. rewrite app_nil_r in *. rewrite !ids_below_app in *. tauto. }
  rewrite lit_plug in Hx |- *. split.
  { destruct (x_ok_plug _ _ _ _ _ Hx) as [H1' H2']. apply H2'. cbn in H1' |- *. tauto. }
  split; [reflexivity|]. split; [|split; [|reflexivity]].
  { exists (map_ctx (lit (const_at F (consts e))) C), (lit (const_at F (consts e)) (TOp op [a; b])), (lit (const_at F (consts e)) (TOp op [b; a])).
    split; [auto|]. split; [auto|]. cbn. eauto. }
  rewrite Ef. apply Permutation_app_head. cbn [flatten flat_map List.length]. rewrite app_nil_r, <- !app_assoc. rewrite app_assoc, (app_assoc (flatten b)).
  apply Permutation_app_tail, Permutation_app_comm.
Qed.

Theorem C21_rotate : forall (T : Type) (F : FloatOps T) D nf known (g : rng T) (e : expr T) (x : xtree T),
  denotes F e x -> x_ok D nf known x ->
  mutates F D nf known (rotate_tree g e) e (fun e' x' =>
    one_change (fun s s' => exists r p l1 r1 l2 c r2,
      s = XOp r (l1 ++ XOp p (l2 ++ c :: r2) :: r1) /\ s' = XOp p (l2 ++ XOp r (l1 ++ c :: r1) :: r2)) x x'
    /\ Permutation (nodes e) (nodes e') /\ consts e' = consts e)
    (~ has_subtree (fun s => exists r p l1 r1 cs, s = XOp r (l1 ++ XOp p cs :: r1)) x).
Proof.
  intros T F D nf known g e x Hd Hx. unfold rotate_tree. pose proof Hd as Hd0. start e x Hd Hx t Hr Hc. rewrite Hr. rewrite Hr in Hc.
  rewrite subtree_sizes_flatten. cbn [bind].
  destruct (valid_roots_ok t (seq 0 (List.length (flatten t))) []) as (rs & Ers & Hrs).
  { intros i Hi. apply in_seq in Hi. rewrite flatten_length in Hi. lia. }
  rewrite Ers. cbn [bind app].
  destruct rs as [|i0 rs0] eqn:Ern.
  { eapply same_result; [eassumption|eassumption|]. intros (C & y & E & r & p & l1 & r1 & cs & ->).
    apply lit_plug_inv in E as (C' & s & -> & _ & E). destruct s as [|?|r' ss]; try discriminate. cbn in E. injection E as -> E.
    apply map_app_inv in E as (l & c & rr & -> & _ & Ec & _). destruct c as [|?|p' ps]; try discriminate.
    apply (Hrs (List.length (before C') + tsize (TOp r (l ++ TOp p' ps :: rr)) - 1)). split.
    - apply in_seq. rewrite flatten_length. pose proof (subtree_at_lt _ _ _ (ctx_subtree_at C' (TOp r (l ++ TOp p' ps :: rr)))). lia.
    - exists r, l, p', ps, rr. apply ctx_subtree_at. }
  rewrite <- Ern in *. destruct (pick_ok g rs) as (i & g1 & E & Hi); [rewrite Ern; discriminate|]. rewrite E. cbn [bind]. clear E.
  apply Hrs in Hi as [_ (op & l & p & ps & r & Hs)].
  unfold index at 1. rewrite (subtree_at_root _ _ _ Hs). cbn [expect bind root_node].
  destruct (Nat.eqb_spec (List.length (l ++ TOp p ps :: r)) 0) as [E0|_]; [rewrite app_length in E0; cbn in E0; lia|].
  rewrite (child_ranges_flatten _ _ _ _ Hs). cbn [bind]. rewrite (op_children_at _ _ _ _ Hs). cbn [bind].
  remember (l ++ TOp p ps :: r) as cs eqn:Ecs. 
  assert (Hne : true_positions (map is_top cs) <> []).
  { intros E0. assert (Hin : In (List.length l) (true_positions (map is_top cs))).
    { apply true_positions_in. rewrite Ecs, map_app, nth_error_app2; rewrite map_length; [|lia]. now rewrite Nat.sub_diag. }
    rewrite E0 in Hin. auto. }
  destruct (true_positions (map is_top cs)) as [|j0 js] eqn:Etp; [congruence|]. rewrite <- Etp in *. clear l p ps r Ecs.
  destruct (pick_ok g1 (true_positions (map is_top cs))) as (pp & g2 & E & Hpp); [auto|]. rewrite E. cbn [bind]. clear E.
  apply true_positions_in in Hpp. rewrite nth_error_map in Hpp. destruct (nth_error cs pp) as [c|] eqn:Ecn; [|discriminate].
  cbn in Hpp. destruct c as [|?|p ps]; try discriminate. clear Hpp Hne Etp.
  unfold index at 1. rewrite (spans_nth _ _ _ _ Ecn). cbn [expect bind snd].
  pose proof (nth_error_split _ _ Ecn) as (l1 & r1 & Ecs & Hlen).
  assert (Hfst : firstn pp cs = l1).
  { rewrite Ecs, <- Hlen. rewrite firstn_app, Nat.sub_diag, firstn_all. cbn. apply app_nil_r. }
  rewrite Hfst. subst cs.
  pose proof (subtree_at_child _ _ _ _ _ _ Hs) as Hp.
  set (pi := i + 1 - tsize (TOp op (l1 ++ TOp p ps :: r1)) + sum_list (map tsize l1) + tsize (TOp p ps) - 1) in *.
  unfold index at 1. rewrite (subtree_at_root _ _ _ Hp). cbn [expect bind root_node].
  (* the pivot has at least one child, the expression being valid *)
  destruct (subtree_at_ctx _ _ _ Hs) as (C & Et & Hl).
  assert (Hxs : x_ok D nf known (lit (const_at F (consts e)) (TOp op (l1 ++ TOp p ps :: r1)))).
  { rewrite Et, lit_plug in Hx. now apply x_ok_plug in Hx. }
  assert (Hps : 1 <= List.length ps).
  { cbn in Hxs. destruct Hxs as (_ & _ & Hxs). rewrite fold_right_and_Forall, map_app, Forall_app in Hxs. destruct Hxs as [_ Hxs].
    inversion Hxs as [|? ? H1 _]; subst. cbn in H1. rewrite map_length in H1. lia. }
  destruct (Nat.eqb_spec (List.length ps) 0) as [E0|_]; [lia|].
  rewrite (child_ranges_flatten _ _ _ _ Hp). cbn [bind].
  destruct (usize_range_ok g2 0 (List.length ps)) as (gp & g3 & E & Hgp); [lia|]. rewrite E. cbn [bind]. clear E.
  destruct (nth_error ps gp) as [gc|] eqn:Egn; [|apply nth_error_None in Egn; lia].
  unfold index at 1. rewrite (spans_nth _ _ _ _ Egn). cbn [expect bind fst snd].
  pose proof (nth_error_split _ _ Egn) as (l2 & r2 & Eps & Hlen2).
  assert (Hfst2 : firstn gp ps = l2).
  { rewrite Eps, <- Hlen2. rewrite firstn_app, Nat.sub_diag, firstn_all. cbn. apply app_nil_r. }
  rewrite Hfst2. subst ps.
  unfold subtree_range, index at 1. rewrite (proj1 (subtree_at_spec _ _ _ Hs)). cbn [expect bind].
  set (S0 := TOp op (l1 ++ TOp p (l2 ++ gc :: r2) :: r1)) in *.
  destruct (Nat.leb_spec (tsize S0) (i + 1)); [|lia]. cbn [bind].
  assert (Est : i + 1 - tsize S0 = List.length (before C)) by lia. rewrite Est in *.
  (* node lists *)
  assert (Ef : flatten t = before C ++ flatten S0 ++ after C) by (rewrite Et; apply flatten_tplug).
  assert (ES : flatten S0 = flat_map flatten l1 ++ (flat_map flatten l2 ++ flatten gc ++ flat_map flatten r2
      ++ [Op (List.length (l2 ++ gc :: r2)) p]) ++ flat_map flatten r1 ++ [Op (List.length (l1 ++ TOp p (l2 ++ gc :: r2) :: r1)) op]).
  { unfold S0. cbn [flatten]. rewrite flat_map_app'. cbn [flat_map flatten]. rewrite flat_map_app'. cbn [flat_map]. rewrite <- !app_assoc. reflexivity. }
  pose proof (flat_map_flatten_length l1) as L1. pose proof (flat_map_flatten_length l2) as L2. pose proof (flatten_length gc) as Lg. pose proof (tsize_pos gc).
  assert (Hpi : pi + 1 = List.length (before C) + sum_list (map tsize l1) + tsize (TOp p (l2 ++ gc :: r2))).
  { unfold pi. pose proof (tsize_pos (TOp p (l2 ++ gc :: r2))). lia. }
  rewrite Hpi. 
  replace (List.length (before C) + sum_list (map tsize l1) + tsize (TOp p (l2 ++ gc :: r2)) - tsize (TOp p (l2 ++ gc :: r2)))
    with (List.length (before C) + sum_list (map tsize l1)) by lia.
  assert (S1 : slice_incl (flatten t) (List.length (before C) + sum_list (map tsize l1) + sum_list (map tsize l2))
      (List.length (before C) + sum_list (map tsize l1) + sum_list (map tsize l2) + tsize gc - 1) = Ok (flatten gc)).
  { rewrite Ef, ES.
    replace (before C ++ (flat_map flatten l1 ++ (flat_map flatten l2 ++ flatten gc ++ flat_map flatten r2
      ++ [Op (List.length (l2 ++ gc :: r2)) p]) ++ flat_map flatten r1 ++ [Op (List.length (l1 ++ TOp p (l2 ++ gc :: r2) :: r1)) op]) ++ after C)
    with ((before C ++ flat_map flatten l1 ++ flat_map flatten l2) ++ flatten gc ++ (flat_map flatten r2
      ++ [Op (List.length (l2 ++ gc :: r2)) p]) ++ flat_map flatten r1 ++ [Op (List.length (l1 ++ TOp p (l2 ++ gc :: r2) :: r1)) op] ++ after C)
      by (rewrite <- !app_assoc; reflexivity).
    apply slice_incl_mid; rewrite ?app_length; lia. }
  rewrite S1. cbn [bind].
  assert (S2 : concat_children (flatten t) (spans (List.length (before C)) (l1 ++ TOp p (l2 ++ gc :: r2) :: r1)) 0 pp (flatten gc)
     = Ok (flat_map flatten l1 ++ flatten gc ++ flat_map flatten r1)).
  { apply (concat_children_split (flatten t) (flatten gc) l1 (TOp p (l2 ++ gc :: r2)) r1 (before C) 0 pp
             ([Op (List.length (l1 ++ TOp p (l2 ++ gc :: r2) :: r1)) op] ++ after C)); [|reflexivity|cbn; lia].
    rewrite Ef. unfold S0. cbn [flatten]. rewrite <- !app_assoc. reflexivity. }
  rewrite S2. cbn [bind].
  set (rotated := TOp op (l1 ++ gc :: r1)).
  assert (Erot : (flat_map flatten l1 ++ flatten gc ++ flat_map flatten r1) ++ [Op (List.length (l1 ++ TOp p (l2 ++ gc :: r2) :: r1)) op] = flatten rotated).
  { unfold rotated. cbn [flatten]. rewrite flat_map_app'. cbn [flat_map]. rewrite !app_length. reflexivity. }
  rewrite Erot.
  assert (S3 : concat_children (flatten t) (spans (List.length (before C) + sum_list (map tsize l1)) (l2 ++ gc :: r2)) 0 gp (flatten rotated)
     = Ok (flat_map flatten l2 ++ flatten rotated ++ flat_map flatten r2)).
  { apply (concat_children_split (flatten t) (flatten rotated) l2 gc r2 (before C ++ flat_map flatten l1) 0 gp
             ([Op (List.length (l2 ++ gc :: r2)) p] ++ flat_map flatten r1 ++ [Op (List.length (l1 ++ TOp p (l2 ++ gc :: r2) :: r1)) op] ++ after C)); [|rewrite app_length; lia|cbn; lia].
    rewrite Ef, ES. rewrite flat_map_app'. cbn [flat_map]. rewrite <- !app_assoc. reflexivity. }
  rewrite S3. cbn [bind].
  set (S' := TOp p (l2 ++ rotated :: r2)).
  assert (ES' : (flat_map flatten l2 ++ flatten rotated ++ flat_map flatten r2) ++ [Op (List.length (l2 ++ gc :: r2)) p] = flatten S').
  { unfold S'. cbn [flatten]. rewrite flat_map_app'. cbn [flat_map]. rewrite !app_length. reflexivity. }
  rewrite ES'.
  assert (S4 : splice (flatten t) (List.length (before C)) i (flatten S') = Ok (before C ++ flatten S' ++ after C)).
  { rewrite Ef. apply splice_mid; auto. rewrite flatten_length. exact Hl. }
  rewrite S4. cbn [bind].
  set (cst := const_at F (consts e)).
  exists true. eexists. exists g3, (xplug (map_ctx (lit cst) C) (lit cst S')).
  split; [reflexivity|]. unfold with_nodes. cbn [nodes consts var_names].
  split.
  { apply (denotes_intro0 F C S0); [now rewrite <- Et|]. change (ids_below (List.length (consts e)) (flatten t)) in Hc. rewrite Ef, ES in Hc.
    rewrite <- ES'. unfold rotated. cbn [flatten]. rewrite flat_map_app'. cbn [flat_map].
    assert (Hnop : forall n a o, ids_below n [Op a o]) by (intros n a o j [Hj|[]]; discriminate).
    rewrite !ids_below_app in Hc. rewrite !ids_below_app. repeat split; try apply Hnop; tauto. }
  rewrite Et, lit_plug in Hx.
  split.
  { apply x_ok_plug in Hx as [_ Hx]. apply Hx. fold cst in Hxs. unfold S0 in Hxs. unfold S', rotated. cbn [lit x_ok] in *.
    rewrite map_length, fold_right_and_Forall, map_app, Forall_app in Hxs. cbn [map] in Hxs.
    destruct Hxs as (K1 & K2 & K3 & K4). inversion K4 as [|? ? K5 K6]; subst. cbn [lit x_ok] in K5.
    rewrite map_length, fold_right_and_Forall, map_app, Forall_app in K5. cbn [map] in K5. destruct K5 as (J1 & J2 & J3 & J4). inversion J4 as [|? ? J5 J6]; subst.
    rewrite !app_length in *. cbn [List.length] in *.
    rewrite map_length, fold_right_and_Forall, map_app, Forall_app, app_length. cbn [map List.length]. repeat split; auto; try lia.
    constructor; auto. cbn [lit x_ok]. rewrite map_length, fold_right_and_Forall, map_app, Forall_app, app_length. cbn [map List.length]. repeat split; auto; lia. }
  split; [reflexivity|]. split; [|split; [|reflexivity]].
  { exists (map_ctx (lit cst) C), (lit cst S0), (lit cst S'). fold cst. split; [now rewrite Et, lit_plug|]. split; [reflexivity|].
    exists op, p, (map (lit cst) l1), (map (lit cst) r1), (map (lit cst) l2), (lit cst gc), (map (lit cst) r2).
    unfold S0, S', rotated. cbn [lit]. rewrite !map_app. cbn [map lit]. rewrite !map_app. cbn [map]. auto. }
  rewrite Ef. apply Permutation_app_head, Permutation_app_tail. rewrite ES, <- ES', <- Erot.
  set (A := flat_map flatten l1). set (B := flat_map flatten l2). set (G := flatten gc). set (Q := flat_map flatten r2). set (P1 := flat_map flatten r1).
  set (o1 := [Op _ p]). set (o2 := [Op _ op]). clear.
  rewrite <- !app_assoc.
  transitivity (B ++ A ++ G ++ Q ++ o1 ++ P1 ++ o2).
  { rewrite !app_assoc. do 5 apply Permutation_app_tail. apply Permutation_app_comm. }
  apply Permutation_app_head, Permutation_app_head, Permutation_app_head.
  rewrite (app_assoc P1). rewrite (app_assoc Q o1). apply Permutation_app_comm.
Qed.

(** ** C19 *)
Definition consts_of_size {T} (e : expr T) (x : xtree T) : Prop := List.length (consts e) <= xsize x.

Theorem C19_mutate_constant : forall (T : Type) (F : FloatOps T) D nf known factor (g : rng T) (e : expr T) (x : xtree T),
  denotes F e x -> x_ok D nf known x ->
  mutates F D nf known (mutate_constant F factor g e) e (fun e' x' =>
    nodes e' = nodes e
    /\ exists ci v exponent bigger negdraw, In (Const ci) (nodes e) /\ nth_error (consts e) ci = Some v
       /\ consts e' = upd (consts e) ci (fmul F v (factor exponent bigger negdraw)))
    (~ has_subtree (fun s => exists v, s = XConst v) x).
Proof.
  intros T F D nf known factor g e x Hd Hx. unfold mutate_constant.
  destruct (positions is_const (nodes e)) as [|i0 l0] eqn:Ep.
  { eapply same_result; [eassumption|eassumption|]. eapply has_op_node; eauto.
    intros c s (v & E). destruct s; try discriminate. reflexivity. }
  rewrite <- Ep. start e x Hd Hx t Hr Hc.
  destruct (pick_ok g (positions is_const (nodes e))) as (i & g1 & E & Hi); [rewrite Ep; discriminate|].
  rewrite E. cbn [bind]. apply positions_in in Hi as (n & Hn & Hb). unfold index at 1. rewrite Hn. cbn [expect bind].
  destruct n as [f|ci|a o]; try discriminate. destruct (rng_real g1) as [ex g2]. destruct (rng_bool g2) as [bg g3]. destruct (rng_real g3) as [ng g4].
  assert (Hin : In (Const ci) (nodes e)) by (eapply nth_error_In; eauto). pose proof (Hc ci Hin) as Hlt.
  unfold index. destruct (nth_error (consts e) ci) as [v|] eqn:Ev; [|apply nth_error_None in Ev; lia]. cbn [expect bind].
  unfold set_index. destruct (Nat.ltb_spec ci (List.length (consts e))); [|lia]. cbn [bind].
  exists true. eexists. exists g4, (lit (const_at F (upd (consts e) ci (fmul F v (factor ex bg ng)))) t).
  split; [reflexivity|]. split.
  { exists t. cbn [nodes consts]. split; auto. split; auto. intros j Hj. rewrite upd_length. auto. }
  split.
  { assert (Hok : tree_ok D nf (List.length (consts e)) known t).
    { apply (tree_ok_split D nf _ known (const_at F (consts e))). split; auto. now rewrite <- Hr. }
    now apply (tree_ok_split D nf (List.length (consts e)) known (const_at F (upd (consts e) ci (fmul F v (factor ex bg ng))))) in Hok. }
  split; [reflexivity|]. split; [reflexivity|]. exists ci, v, ex, bg, ng. auto.
Qed.

Theorem C19_mutate_operator : forall (T : Type) (F : FloatOps T) D nf known reg (g : rng T) (e : expr T) (x : xtree T),
  denotes F e x -> x_ok D nf known x -> reg_ok D known reg ->
  mutates F D nf known (mutate_operator reg g e) e (fun e' x' =>
    one_change (fun s s' => exists op op' cs, s = XOp op cs /\ s' = XOp op' cs /\ registered reg (List.length cs) op') x x'
    /\ consts e' = consts e)
    (~ has_subtree (fun s => exists op cs, s = XOp op cs) x \/ has_subtree (fun s => exists op cs, s = XOp op cs /\ forall op', ~ registered reg (List.length cs) op') x).
Proof.
  intros T F D nf known reg g e x Hd Hx Hreg. unfold mutate_operator.
  destruct (positions is_op (nodes e)) as [|i0 l0] eqn:Ep.
  { eapply same_result; [eassumption|eassumption|]. left. eapply has_op_node; [exact Hd| |exact Ep]. intros c [f|k|op cs] (o & l & [=]). reflexivity. }
  rewrite <- Ep. pose proof Hd as Hd0. start e x Hd Hx t Hr Hc.
  destruct (pick_ok g (positions is_op (nodes e))) as (i & g1 & E & Hi); [rewrite Ep; discriminate|].
  rewrite E. cbn [bind]. apply positions_in in Hi as (n & Hn & Hb). rewrite Hr in Hn, Hc |- *. unfold index at 1. rewrite Hn. cbn [expect bind].
  destruct (node_ctx _ _ _ Hn) as (C & s & Et & Hl & Hroot & Hs).
  destruct s as [f|k|op cs]; cbn in Hroot; subst n; try discriminate. pose proof Hx as Hx0. rewrite Et, lit_plug in Hx.
  pose proof (x_ok_plug _ _ _ _ _ Hx) as [Hxs Hpl]. cbn [lit x_ok] in Hxs. rewrite map_length in Hxs. destruct Hxs as (Hlen & Hk & Hcs).
  destruct Hreg as [HD Hreg]. rewrite nops_ok by lia. cbn [bind].
  destruct (Nat.eqb_spec (List.length (ops_of_arity reg (List.length cs))) 0) as [E0|Hne].
  { eapply same_result; [exact Hd0|exact Hx0|]. right. exists (map_ctx (lit (const_at F (consts e))) C), (lit (const_at F (consts e)) (TOp op cs)). rewrite Et, lit_plug. split; [reflexivity|].
    exists op, (map (lit (const_at F (consts e))) cs). split; [reflexivity|]. rewrite map_length. unfold registered. intros op'. destruct (ops_of_arity reg (List.length cs)); [auto|discriminate]. }
  pose proof (C17_sample_op T D reg g1 (List.length cs) HD ltac:(lia)) as Hso.
  destruct (ops_of_arity reg (List.length cs)) as [|o os] eqn:Eo; [cbn in Hne; lia|].
  destruct Hso as (op' & g2 & E2 & Hin). rewrite E2. cbn [bind].
  destruct (Hreg (List.length cs) op' ltac:(lia)) as [Ha Hkn]; [now rewrite Eo|].
  assert (Ef : flatten t = (before C ++ flat_map flatten cs) ++ Op (List.length cs) op :: after C).
  { rewrite Et, flatten_tplug. cbn [flatten]. rewrite <- !app_assoc. reflexivity. }
  assert (Si : set_index (flatten t) i (Op (List.length cs) (snd op')) = Ok (before C ++ flatten (TOp (snd op') cs) ++ after C)).
  { rewrite Ef, set_index_mid; [cbn [flatten]; now rewrite <- !app_assoc|]. rewrite app_length, flat_map_flatten_length. cbn [tsize] in Hl. lia. }
  rewrite Si. cbn [bind]. set (cst := const_at F (consts e)) in *.
  exists true. eexists. exists g2, (xplug (map_ctx (lit cst) C) (lit cst (TOp (snd op') cs))).
  split; [reflexivity|]. unfold with_nodes. cbn [nodes consts var_names]. split.
  { apply (denotes_intro0 F C (TOp op cs)); [now rewrite <- Et|]. change (ids_below (List.length (consts e)) (flatten t)) in Hc.
    rewrite Et, flatten_tplug in Hc. cbn [flatten] in *. rewrite !ids_below_app in *. repeat split; try tauto. intros j [Hj|[]]. discriminate. }
  split. { apply Hpl. cbn [lit x_ok]. rewrite map_length. auto. }
  split; [reflexivity|]. split; [|reflexivity].
  exists (map_ctx (lit cst) C), (lit cst (TOp op cs)), (lit cst (TOp (snd op') cs)). split; [now rewrite Et, lit_plug|]. split; [reflexivity|].
  exists op, (snd op'), (map (lit cst) cs). split; [reflexivity|]. split; [reflexivity|]. rewrite map_length. unfold registered. rewrite Eo.
  rewrite <- Ha. destruct op'; exact Hin.
Qed.

Theorem C19_mutate_feature : forall (T : Type) (F : FloatOps T) D nf known (g : rng T) (e : expr T) (x : xtree T),
  denotes F e x -> x_ok D nf known x -> nf <= S u16_max ->
  mutates F D nf known (mutate_feature nf g e) e (fun e' x' =>
    one_change (fun s s' => exists f f', s = XVar f /\ s' = XVar f' /\ f' <> f) x x' /\ consts e' = consts e)
    (nf <= 1 \/ ~ has_subtree (fun s => exists f, s = XVar f) x
     \/ has_subtree (fun s => exists f, s = XVar f /\ forall i, i < 8 -> rg_nat g (S i) mod nf = f) x).
Proof.
  intros T F D nf known g e x Hd Hx Hnf. unfold mutate_feature.
  destruct (Nat.leb_spec nf 1); [eapply same_result; [eassumption|eassumption|]; auto|].
  destruct (positions is_var (nodes e)) as [|i0 l0] eqn:Ep.
  { eapply same_result; [eassumption|eassumption|]. right. left. eapply has_op_node; [exact Hd| |exact Ep]. intros c [f|k|op cs] (o & [=]). reflexivity. }
  rewrite <- Ep. pose proof Hd as Hd0. start e x Hd Hx t Hr Hc.
  destruct (pick_ok g (positions is_var (nodes e))) as (i & g1 & E & Hi); [rewrite Ep; discriminate|].
  assert (Hg1 : forall j, rg_nat g1 j = rg_nat g (S j)).
  { unfold pick, usize_range in E. destruct (0 <? _); [|discriminate]. cbn [bind] in E. destruct (index _ _); [|discriminate|discriminate]. cbn [bind] in E. injection E as _ <-. reflexivity. }
  rewrite E. cbn [bind]. apply positions_in in Hi as (n & Hn & Hb). rewrite Hr in Hn, Hc |- *. unfold index at 1. rewrite Hn. cbn [expect bind].
  destruct (node_ctx _ _ _ Hn) as (C & s & Et & Hl & Hroot & Hs).
  destruct s as [f|k|op cs]; cbn in Hroot; subst n; try discriminate.
  destruct (Nat.leb_spec nf f) as [Hle|Hlt].
  { exfalso. rewrite Et, lit_plug in Hx. apply x_ok_plug in Hx as [Hx _]. cbn in Hx. lia. }
  assert (Hdraw : forall k (g : rng T), exists r g', draw_feature k g nf f = Ok (r, g') /\ match r with Some f' => f' < nf /\ f' <> f | None => forall i, i < k -> rg_nat g i mod nf = f end).
  { induction k as [|k IH]; intros g'; cbn [draw_feature]; [do 2 eexists; split; [reflexivity|intros j Hj; lia]|].
    destruct (usize_range_ok g' 0 nf) as (f' & g'' & E' & Hf'); [lia|]. rewrite E'. cbn [bind].
    destruct (Nat.eqb_spec f' f) as [Hff|]; cbn [negb].
    { destruct (IH g'') as (r & g3 & Er & Hr'). exists r, g3. split; [exact Er|]. destruct r; [exact Hr'|]. unfold usize_range in E'. destruct (0 <? nf); [|discriminate]. injection E' as E1 E2.
      rewrite Nat.sub_0_r in E1. intros [|j] Hj; [congruence|]. rewrite <- (Hr' j) by lia. rewrite <- E2. reflexivity. }
    destruct (Nat.leb_spec f' u16_max); [|lia]. do 2 eexists. split; [reflexivity|]. cbn. lia. }
  destruct (Hdraw 8 g1) as (r & g2 & E2 & Hrr). rewrite E2. cbn [bind]. destruct r as [f'|].
  2:{ eapply same_result; [exact Hd0|exact Hx|]. right. right. exists (map_ctx (lit (const_at F (consts e))) C), (lit (const_at F (consts e)) (TVar f)). rewrite Et, lit_plug. split; [reflexivity|].
      exists f. split; [reflexivity|]. intros j Hj. rewrite <- Hg1. auto. }
  assert (Ef : flatten t = before C ++ Var f :: after C) by (rewrite Et, flatten_tplug; reflexivity).
  assert (Si : set_index (flatten t) i (Var f') = Ok (before C ++ flatten (TVar f') ++ after C)).
  { rewrite Ef, set_index_mid; [reflexivity|]. cbn [tsize] in Hl. lia. }
  rewrite Si. cbn [bind]. set (cst := const_at F (consts e)) in *.
  exists true. eexists. exists g2, (xplug (map_ctx (lit cst) C) (lit cst (TVar f'))).
  split; [reflexivity|]. unfold with_nodes. cbn [nodes consts var_names]. split.
  { apply (denotes_intro0 F C (TVar f)); [now rewrite <- Et|]. intros j [Hj|[]]. discriminate. }
  rewrite Et, lit_plug in Hx. split. { apply x_ok_plug in Hx as [_ Hpl]. apply Hpl. cbn. lia. }
  split; [reflexivity|]. split; [|reflexivity].
  exists (map_ctx (lit cst) C), (lit cst (TVar f)), (lit cst (TVar f')). split; [now rewrite Et, lit_plug|]. split; [reflexivity|].
  exists f, f'. cbn. repeat split; lia.
Qed.

(** A new operator over the old subtree and fresh leaves. *)
Definition wraps {T} (reg : registry) (s s' : xtree T) : Prop :=
  exists op l r, s' = XOp op (l ++ s :: r) /\ Forall xleaf (l ++ r) /\ registered reg (S (List.length (l ++ r))) op.

(** Finishing step shared by the mutations that add nodes. *)
Lemma finish_compress {T} (F : FloatOps T) D nf known e e1 (x1 : xtree T) g (P : expr T -> xtree T -> Prop) N :
  denotes F e1 x1 -> x_ok D nf known x1 -> var_names e1 = var_names e -> List.length (consts e1) <= u16_max ->
  (forall e', denotes F e' x1 -> List.length (consts e') <= List.length (consts e1) -> List.length (consts e') <= xsize x1 -> P e' x1) ->
  mutates F D nf known (let! (e, _) := compress_constants e1 in Ok (true, e, g)) e P N.
Proof.
  intros H1 H2 H3 H4 H5. destruct (compress_denotes F e1 x1 H1 H4) as (e' & b & E & Hd & Hv & Hl1 & Hl2). rewrite E. cbn [bind].
  exists true, e', g, x1. split; auto. split; auto. split; auto. split; [congruence|]. apply H5; auto.
Qed.

Lemma leaves_x_ok {T} D nf known (cst : nat -> T) n ts : Forall (leaf_ok nf n) ts -> Forall (fun t => x_ok D nf known (lit cst t)) ts.
Proof. apply Forall_impl. intros t. apply leaf_ok_x. Qed.

Lemma carry_result {T} (F : FloatOps T) D nf known reg C s l r op cs0 ex names :
  ids_below (List.length cs0) (flatten (tplug C s)) -> x_ok D nf known (lit (const_at F cs0) (tplug C s)) ->
  Forall (leaf_ok nf (List.length (cs0 ++ ex))) (l ++ r) -> 1 <= S (List.length (l ++ r)) <= D ->
  known (S (List.length (l ++ r))) op = true -> registered reg (S (List.length (l ++ r))) op ->
  exists x', denotes F (mkExpr (before C ++ flatten (TOp op (l ++ s :: r)) ++ after C) (cs0 ++ ex) names) x' /\ x_ok D nf known x'
    /\ exists C', lit (const_at F cs0) (tplug C s) = xplug C' (lit (const_at F cs0) s) /\ (C = Hole -> C' = Hole)
       /\ exists s', x' = xplug C' s' /\ wraps reg (lit (const_at F cs0) s) s'.
Proof.
  intros Hids Hx Hlv Hlen Hk Hreg. set (cst := const_at F cs0) in *. set (cst' := const_at F (cs0 ++ ex)).
  assert (Hs : ids_below (List.length cs0) (flatten s)) by (rewrite flatten_tplug, !ids_below_app in Hids; tauto).
  assert (Hls : lit cst' s = lit cst s) by (apply lit_old; auto).
  exists (xplug (map_ctx (lit cst) C) (lit cst' (TOp op (l ++ s :: r)))).
  assert (Elit : lit cst' (TOp op (l ++ s :: r)) = XOp op (map (lit cst') l ++ lit cst s :: map (lit cst') r)).
  { cbn [lit]. rewrite map_app. cbn [map]. now rewrite Hls. }
  apply Forall_app in Hlv as [Hlv1 Hlv2]. rewrite app_length in Hlen, Hk, Hreg.
  split.
  { apply (denotes_intro F C s); auto. cbn [flatten]. rewrite flat_map_app'. cbn [flat_map]. rewrite !ids_below_app.
    assert (G : forall ts, Forall (leaf_ok nf (List.length (cs0 ++ ex))) ts -> ids_below (List.length (cs0 ++ ex)) (flat_map flatten ts)).
    { intros ts Hts i Hi. apply in_flat_map in Hi as (t & Ht & Hi). rewrite Forall_forall in Hts. eapply leaf_ok_ids; [apply Hts; eauto|auto]. }
    repeat split; auto.
    - eapply ids_below_le; [|exact Hs]. rewrite app_length; lia.
    - intros j [Hj|[]]. discriminate. }
  rewrite lit_plug in Hx. apply x_ok_plug in Hx as [Hxs Hpl]. split.
  { apply Hpl. rewrite Elit. cbn [x_ok]. rewrite app_length. cbn [List.length]. rewrite !map_length.
    replace (List.length l + S (List.length r)) with (S (List.length l + List.length r)) by lia. split; auto. split; auto.
    rewrite fold_right_and_Forall, Forall_app. split; [|constructor; auto]; rewrite Forall_map; eapply leaves_x_ok; eauto. }
  exists (map_ctx (lit cst) C). split; [apply lit_plug|]. split; [now intros ->|].
  eexists. split; [reflexivity|]. rewrite Elit. exists op, (map (lit cst') l), (map (lit cst') r). split; auto.
  rewrite app_length, !map_length. split; auto. apply Forall_app.
  split; rewrite Forall_map; (eapply Forall_impl; [|eassumption]); intros t Ht; apply xleaf_lit; eapply leaf_ok_leaf; eauto.
Qed.

Theorem C19_insert : forall (T : Type) (F : FloatOps T) D nf known reg (g : rng T) (e : expr T) (x : xtree T),
  denotes F e x -> x_ok D nf known x -> setting D nf known reg -> List.length (consts e) + D <= u16_max ->
  mutates F D nf known (insert_random_op D reg nf g e) e (fun e' x' => one_change (wraps reg) x x' /\ consts_of_size e' x')
    (forall a op, 1 <= a <= D -> ~ registered reg a op).
Proof.
  intros T F D nf known reg g e x Hd Hx (Hreg & Hnf & HD) Hcap. unfold insert_random_op.
  pose proof (proj1 Hreg) as HlD. rewrite (total_ok D reg D HlD). rewrite Nat.min_id. cbn [bind].
  destruct (Nat.eqb_spec (count_up_to reg D) 0) as [E0|Hne].
  { destruct (nodes e) as [|n ns] eqn:En; (eapply same_result; [eassumption|eassumption|now apply count_zero]). }
  start e x Hd Hx t Hr Hc. 
  assert (Hne' : exists n ns, nodes e = n :: ns).
  { rewrite Hr. pose proof (tsize_pos t). rewrite <- flatten_length in *. destruct (flatten t); [cbn in *; lia|eauto]. }
  destruct Hne' as (n & ns & En). rewrite En, <- En, Hr. clear n ns En. rewrite Hr in Hc.
  destruct (usize_range_ok g 0 (List.length (flatten t))) as (i & g1 & E1 & Hi).
  { rewrite flatten_length. apply tsize_pos. }
  rewrite E1. cbn [bind]. clear E1. rewrite subtree_sizes_flatten. cbn [bind].
  destruct (subtree_at_exists t i) as [s Hs]; [rewrite <- flatten_length; lia|].
  destruct (subtree_at_ctx _ _ _ Hs) as (C & Et & Hl).
  unfold subtree_range, index at 1. rewrite (proj1 (subtree_at_spec _ _ _ Hs)). cbn [expect bind].
  destruct (Nat.leb_spec (tsize s) (i + 1)); [|lia]. cbn [bind].
  replace (i + 1 - tsize s) with (List.length (before C)) by lia.
  assert (Ef : flatten t = before C ++ flatten s ++ after C) by (rewrite Et; apply flatten_tplug).
  assert (S1 : slice_incl (flatten t) (List.length (before C)) i = Ok (flatten s)).
  { rewrite Ef. apply slice_incl_mid; auto. rewrite flatten_length; lia. }
  rewrite S1. cbn [bind].
  destruct (sample_ok D known reg g1 D Hreg) as (a & op & g2 & g3 & E2 & E3 & Ha & Hop & Hk); [rewrite Nat.min_id; lia|].
  rewrite Nat.min_id in Ha. rewrite E2. cbn [bind]. rewrite E3. cbn [bind].
  destruct (usize_range_ok g3 0 a) as (carry & g4 & E4 & Hcy); [lia|]. rewrite E4. cbn [bind].
  destruct (carry_children_ok nf s a 0 carry g4 (consts e) Hnf) as (ls & g5 & ex & ts & E5 & Hts & Hlen & Hex & _ & Hsplit); [lia|].
  destruct Hsplit as (l & r & -> & Hll & Hlv); [lia|]. rewrite E5. cbn [bind]. rewrite as_u8_small by lia.
  assert (Hsl : S (List.length (l ++ r)) = a) by (rewrite app_length in *; cbn in *; lia).
  assert (Enew : ls ++ [Op a (snd op)] = flatten (TOp (snd op) (l ++ s :: r))) by (cbn [flatten]; rewrite Hts, Hlen; reflexivity).
  rewrite Enew.
  assert (S2 : splice (flatten t) (List.length (before C)) i (flatten (TOp (snd op) (l ++ s :: r))) = Ok (before C ++ flatten (TOp (snd op) (l ++ s :: r)) ++ after C)).
  { rewrite Ef. apply splice_mid; auto. rewrite flatten_length; lia. }
  rewrite S2. cbn [bind]. 
 
  rewrite Et in Hx, Hc |- *.
  destruct (carry_result F D nf known reg C s l r (snd op) (consts e) ex (var_names e) Hc Hx Hlv) as (x' & Hd' & Hx' & C' & EC & _ & s' & Es' & Hw);
    [lia|now rewrite Hsl|now rewrite Hsl|].
  eapply finish_compress; [exact Hd'|exact Hx'|reflexivity|cbn [consts]; rewrite app_length; lia|].
  intros e' _ _ Hsz. split; [|exact Hsz]. exists C', (lit (const_at F (consts e)) s), s'. auto.
Qed.

Theorem C19_prepend : forall (T : Type) (F : FloatOps T) D nf known reg (g : rng T) (e : expr T) (x : xtree T),
  denotes F e x -> x_ok D nf known x -> setting D nf known reg -> List.length (consts e) + D <= u16_max ->
  mutates F D nf known (prepend_random_op D reg nf g e) e (fun e' x' => wraps reg x x' /\ consts_of_size e' x')
    (forall a op, 1 <= a <= D -> ~ registered reg a op).
Proof.
  intros T F D nf known reg g e x Hd Hx (Hreg & Hnf & HD) Hcap. unfold prepend_random_op.
  pose proof (proj1 Hreg) as HlD. rewrite (total_ok D reg D HlD). rewrite Nat.min_id. cbn [bind].
  destruct (Nat.eqb_spec (count_up_to reg D) 0) as [E0|Hne].
  { destruct (nodes e) as [|n ns] eqn:En; (eapply same_result; [eassumption|eassumption|now apply count_zero]). }
  start e x Hd Hx t Hr Hc. 
  assert (Hne' : exists n ns, nodes e = n :: ns).
  { rewrite Hr. pose proof (tsize_pos t). rewrite <- flatten_length in *. destruct (flatten t); [cbn in *; lia|eauto]. }
  destruct Hne' as (n & ns & En). rewrite En, <- En, Hr. clear n ns En. rewrite Hr in Hc.
  destruct (sample_ok D known reg g D Hreg) as (a & op & g2 & g3 & E2 & E3 & Ha & Hop & Hk); [rewrite Nat.min_id; lia|].
  rewrite Nat.min_id in Ha. rewrite E2. cbn [bind]. rewrite E3. cbn [bind].
  destruct (usize_range_ok g3 0 a) as (carry & g4 & E4 & Hcy); [lia|]. rewrite E4. cbn [bind].
  destruct (carry_children_ok nf t a 0 carry g4 (consts e) Hnf) as (ls & g5 & ex & ts & E5 & Hts & Hlen & Hex & _ & Hsplit); [lia|].
  destruct Hsplit as (l & r & -> & Hll & Hlv); [lia|]. rewrite E5. cbn [bind]. rewrite as_u8_small by lia.
  assert (Hsl : S (List.length (l ++ r)) = a) by (rewrite app_length in *; cbn in *; lia).
  assert (Enew : ls ++ [Op a (snd op)] = before Hole ++ flatten (TOp (snd op) (l ++ t :: r)) ++ after Hole).
  { cbn [flatten before after app]. rewrite Hts, Hlen, app_nil_r. reflexivity. }
  rewrite Enew.
  destruct (carry_result F D nf known reg Hole t l r (snd op) (consts e) ex (var_names e) Hc Hx Hlv) as (x' & Hd' & Hx' & C' & EC & HC & s' & Es' & Hw);
    [lia|now rewrite Hsl|now rewrite Hsl|].
  eapply finish_compress; [exact Hd'|exact Hx'|reflexivity|cbn [consts]; rewrite app_length; lia|].
  intros e' _ _ Hsz. split; [|exact Hsz]. rewrite (HC eq_refl) in Es'. cbn in Es'. now subst s'.
Qed.

(** A leaf becomes an operator over fresh leaves. *)
Definition grows {T} (reg : registry) (s s' : xtree T) : Prop :=
  xleaf s /\ exists op cs, s' = XOp op cs /\ Forall xleaf cs /\ registered reg (List.length cs) op.

Lemma grow_result {T} (F : FloatOps T) D nf known reg C s ts op cs0 ex names :
  ids_below (List.length cs0) (flatten (tplug C s)) -> x_ok D nf known (lit (const_at F cs0) (tplug C s)) -> tleaf s ->
  Forall (leaf_ok nf (List.length (cs0 ++ ex))) ts -> 1 <= List.length ts <= D ->
  known (List.length ts) op = true -> registered reg (List.length ts) op ->
  exists x', denotes F (mkExpr (before C ++ flatten (TOp op ts) ++ after C) (cs0 ++ ex) names) x' /\ x_ok D nf known x'
    /\ one_change (grows reg) (lit (const_at F cs0) (tplug C s)) x' /\ xsize x' = tsize (tplug C s) + List.length ts.
Proof.
  intros Hids Hx Hleaf Hlv Hlen Hk Hreg. set (cst := const_at F cs0) in *. set (cst' := const_at F (cs0 ++ ex)).
  exists (xplug (map_ctx (lit cst) C) (lit cst' (TOp op ts))).
  split.
  { apply (denotes_intro F C s); auto. cbn [flatten]. rewrite !ids_below_app. split.
    - intros i Hi. apply in_flat_map in Hi as (t & Ht & Hi). rewrite Forall_forall in Hlv. eapply leaf_ok_ids; [apply Hlv; eauto|auto].
    - intros j [Hj|[]]. discriminate. }
  rewrite <- (xsize_lit cst). rewrite lit_plug in *. apply x_ok_plug in Hx as [Hxs Hpl]. split.
  { apply Hpl. cbn [lit x_ok]. rewrite map_length. split; auto. split; auto. rewrite fold_right_and_Forall, Forall_map. eapply leaves_x_ok; eauto. }
  split.
  { do 3 eexists. split; [reflexivity|]. split; [reflexivity|]. split; [now apply xleaf_lit|]. cbn [lit]. do 2 eexists. split; [reflexivity|].
    rewrite map_length. split; auto. rewrite Forall_map. eapply Forall_impl; [|exact Hlv]. intros t Ht. apply xleaf_lit. eapply leaf_ok_leaf; eauto. }
  pose proof (xsize_plug (map_ctx (lit cst) C) (lit cst s) (lit cst' (TOp op ts))) as Hp.
  rewrite (xsize_lit cst s), (tleaf_size s Hleaf) in Hp.
  assert (Hts : xsize (lit cst' (TOp op ts)) = 1 + List.length ts).
  { rewrite xsize_lit. cbn [tsize]. f_equal. clear -Hlv. induction Hlv as [|t ts Ht _ IH]; cbn; auto. rewrite (tleaf_size t (leaf_ok_leaf _ _ _ Ht)). lia. }
  rewrite Hts in Hp. lia.
Qed.

Lemma leaf_positions_ok {T} D nf known (c : nat -> T) t : x_ok D nf known (lit c t) -> positions is_leaf_node (flatten t) <> [].
Proof.
  intros H. destruct (proper_leaf D nf known c t H) as (n & Hn & Hl). intros E.
  rewrite (proj1 (positions_nil _ _) E n Hn) in Hl. discriminate.
Qed.

Theorem C19_append : forall (T : Type) (F : FloatOps T) D nf known reg (g : rng T) (e : expr T) (x : xtree T),
  denotes F e x -> x_ok D nf known x -> setting D nf known reg -> List.length (consts e) + D <= u16_max ->
  mutates F D nf known (append_random_op D reg nf g e) e (fun e' x' => one_change (grows reg) x x' /\ consts_of_size e' x')
    (forall a op, 1 <= a <= D -> ~ registered reg a op).
Proof.
  intros T F D nf known reg g e x Hd Hx (Hreg & Hnf & HD) Hcap. unfold append_random_op.
  pose proof (proj1 Hreg) as HlD. rewrite (total_ok D reg D HlD). rewrite Nat.min_id. cbn [bind].
  destruct (Nat.eqb_spec (count_up_to reg D) 0) as [E0|Hne].
  { destruct (nodes e) as [|n ns] eqn:En; (eapply same_result; [eassumption|eassumption|now apply count_zero]). }
  start e x Hd Hx t Hr Hc. 
  assert (Hne' : exists n ns, nodes e = n :: ns).
  { rewrite Hr. pose proof (tsize_pos t). rewrite <- flatten_length in *. destruct (flatten t); [cbn in *; lia|eauto]. }
  destruct Hne' as (n & ns & En). rewrite En, <- En, Hr. clear n ns En. rewrite Hr in Hc.
  pose proof (leaf_positions_ok _ _ _ _ _ Hx) as Hlp.
  destruct (positions is_leaf_node (flatten t)) as [|i0 l0] eqn:Ep; [congruence|]. rewrite <- Ep in *.
  destruct (pick_ok g (positions is_leaf_node (flatten t)) Hlp) as (i & g1 & E1 & Hi). rewrite E1. cbn [bind].
  apply positions_in in Hi as (n & Hn & Hleaf). destruct (node_ctx _ _ _ Hn) as (C & s & Et & Hl & Hroot & Hs).
  assert (Hsl : tleaf s) by (destruct s; cbn in *; subst n; cbn in *; try exact I; discriminate).
  destruct (sample_ok D known reg g1 D Hreg) as (a & op & g2 & g3 & E2 & E3 & Ha & Hop & Hk); [rewrite Nat.min_id; lia|].
  rewrite Nat.min_id in Ha. rewrite E2. cbn [bind]. rewrite E3. cbn [bind].
  destruct (random_leaves_ok nf a g3 (consts e) Hnf) as (ls & g5 & ex & ts & E5 & Hts & Hlen & Hlv & Hex); [lia|].
  rewrite E5. cbn [bind]. rewrite as_u8_small by lia.
  assert (Enew : ls ++ [Op a (snd op)] = flatten (TOp (snd op) ts)) by (cbn [flatten]; rewrite Hts, Hlen; reflexivity).
  rewrite Enew. rewrite (tleaf_size s Hsl) in Hl.
  assert (Ef : flatten t = before C ++ flatten s ++ after C) by (rewrite Et; apply flatten_tplug).
  assert (S2 : splice (flatten t) i i (flatten (TOp (snd op) ts)) = Ok (before C ++ flatten (TOp (snd op) ts) ++ after C)).
  { rewrite Ef. apply splice_mid; [lia|]. rewrite flatten_length, (tleaf_size s Hsl). lia. }
  rewrite S2. cbn [bind].
  rewrite Et in Hx, Hc |- *.
  destruct (grow_result F D nf known reg C s ts (snd op) (consts e) ex (var_names e) Hc Hx Hsl Hlv) as (x' & Hd' & Hx' & Hch & _);
    [lia|now rewrite Hlen|now rewrite Hlen|].
  eapply finish_compress; [exact Hd'|exact Hx'|reflexivity|cbn [consts]; rewrite app_length; lia|].
  intros e' _ _ Hsz. split; auto.
Qed.

Theorem C19_add : forall (T : Type) (F : FloatOps T) D nf known reg (g : rng T) (e : expr T) (x : xtree T),
  denotes F e x -> x_ok D nf known x -> setting D nf known reg -> List.length (consts e) + D <= u16_max ->
  mutates F D nf known (add_node D reg nf g e) e (fun e' x' => (one_change (grows reg) x x' \/ wraps reg x x') /\ consts_of_size e' x')
    (forall a op, 1 <= a <= D -> ~ registered reg a op).
Proof.
  intros T F D nf known reg g e x Hd Hx Hset Hcap. unfold add_node. destruct (rng_bool g) as [[|] g1].
  - destruct (C19_append T F D nf known reg g1 e x Hd Hx Hset Hcap) as (b & e' & g' & x' & E & H1 & H2 & H3 & H4).
    exists b, e', g', x'. repeat split; auto. destruct b; intuition.
  - destruct (C19_prepend T F D nf known reg g1 e x Hd Hx Hset Hcap) as (b & e' & g' & x' & E & H1 & H2 & H3 & H4).
    exists b, e', g', x'. repeat split; auto. destruct b; intuition.
Qed.

Theorem C19_delete : forall (T : Type) (F : FloatOps T) D nf known (g : rng T) (e : expr T) (x : xtree T),
  denotes F e x -> x_ok D nf known x -> List.length (consts e) <= u16_max ->
  mutates F D nf known (delete_random_op g e) e (fun e' x' =>
    one_change (fun s s' => exists op l r, s = XOp op (l ++ s' :: r)) x x' /\ consts_of_size e' x')
    (xleaf x).
Proof.
  intros T F D nf known g e x Hd Hx Hcap. unfold delete_random_op.
  destruct (positions is_op (nodes e)) as [|i0 l0] eqn:Ep.
  { eapply same_result; [eassumption|eassumption|].
    assert (H : ~ has_subtree (fun s => ~ xleaf s) x).
    { eapply has_op_node; [exact Hd| |exact Ep]. intros c s H. destruct s; cbn in *; tauto. }
    destruct x as [f|v|op cs]; cbn; auto. apply H. exists Hole, (XOp op cs). split; auto. }
  rewrite <- Ep. start e x Hd Hx t Hr Hc.
  destruct (pick_ok g (positions is_op (nodes e))) as (i & g1 & E & Hi); [rewrite Ep; discriminate|].
  rewrite E. cbn [bind]. apply positions_in in Hi as (n & Hn & Hb). rewrite Hr in Hn, Hc |- *. unfold index at 1. rewrite Hn. cbn [expect bind].
  destruct (node_ctx _ _ _ Hn) as (C & s & Et & Hl & Hroot & Hs).
  destruct s as [f|k|op cs]; cbn in Hroot; subst n; try discriminate. 
  pose proof Hx as Hx0. rewrite Et, lit_plug in Hx0.
  pose proof (x_ok_plug _ _ _ _ _ Hx0) as [Hxs Hpl]. cbn [lit x_ok] in Hxs. rewrite map_length in Hxs. destruct Hxs as (Hlen & Hk & Hcs).
  destruct (Nat.eqb_spec (List.length cs) 0); [lia|]. rewrite subtree_sizes_flatten. cbn [bind].
  unfold subtree_range, index at 1. rewrite (proj1 (subtree_at_spec _ _ _ Hs)). cbn [expect bind].
  destruct (Nat.leb_spec (tsize (TOp op cs)) (i + 1)); [|lia]. cbn [bind].
  assert (Est : i + 1 - tsize (TOp op cs) = List.length (before C)) by lia.
  assert (Hsz : 2 <= tsize (TOp op cs)).
  { destruct cs as [|c cs]; [cbn in Hlen; lia|]. cbn. pose proof (tsize_pos c). lia. }
  destruct (Nat.eqb_spec (i + 1 - tsize (TOp op cs)) i); [lia|].
  rewrite (child_ranges_flatten _ _ _ _ Hs). cbn [bind]. rewrite Est.
  destruct (usize_range_ok g1 0 (List.length cs)) as (k & g2 & E2 & Hkk); [lia|]. rewrite E2. cbn [bind].
  destruct (nth_error cs k) as [c|] eqn:Ek; [|apply nth_error_None in Ek; lia].
  unfold index. rewrite (spans_nth _ _ _ _ Ek). cbn [expect bind fst snd].
  pose proof (nth_error_split _ _ Ek) as (l & r & Ecs & Hll).
  assert (Hfst : firstn k cs = l) by (rewrite Ecs, <- Hll, firstn_app, Nat.sub_diag, firstn_all; cbn; apply app_nil_r).
  rewrite Hfst. subst cs. pose proof (tsize_pos c).
  assert (Ef : flatten t = before C ++ flatten (TOp op (l ++ c :: r)) ++ after C) by (rewrite Et; apply flatten_tplug).
  assert (S1 : slice_incl (flatten t) (List.length (before C) + sum_list (map tsize l)) (List.length (before C) + sum_list (map tsize l) + tsize c - 1) = Ok (flatten c)).
  { rewrite Ef. cbn [flatten]. rewrite flat_map_app'. cbn [flat_map]. rewrite <- !app_assoc. rewrite (app_assoc (before C)).
    apply slice_incl_mid; rewrite ?app_length, ?flatten_length, ?flat_map_flatten_length; lia. }
  rewrite S1. cbn [bind].
  assert (S2 : splice (flatten t) (List.length (before C)) i (flatten c) = Ok (before C ++ flatten c ++ after C)).
  { rewrite Ef. apply splice_mid; auto. rewrite flatten_length. exact Hl. }
  rewrite S2. cbn [bind].
  set (cst := const_at F (consts e)) in *.
  eapply finish_compress with (x1 := xplug (map_ctx (lit cst) C) (lit cst c)).
  - unfold with_nodes. apply (denotes_intro0 F C (TOp op (l ++ c :: r))); [now rewrite <- Et|].
    change (ids_below (List.length (consts e)) (flatten t)) in Hc. rewrite Ef in Hc. cbn [flatten] in Hc. rewrite flat_map_app' in Hc. cbn [flat_map] in Hc.
    rewrite !ids_below_app in Hc. tauto.
  - apply Hpl. rewrite fold_right_and_Forall, Forall_map, Forall_app in Hcs. destruct Hcs as [_ Hcs]. now inversion Hcs.
  - reflexivity.
  - exact Hcap.
  - intros e' _ _ Hs'. split; [|exact Hs']. exists (map_ctx (lit cst) C), (lit cst (TOp op (l ++ c :: r))), (lit cst c).
    split; [now rewrite Et, lit_plug|]. split; auto. exists op, (map (lit cst) l), (map (lit cst) r). cbn. now rewrite map_app.
Qed.

(** ** C20 *)
Theorem C20_crossover : forall (T : Type) (F : FloatOps T) D nf known (g : rng T) (a b : expr T) (xa xb : xtree T),
  denotes F a xa -> denotes F b xb -> x_ok D nf known xa -> x_ok D nf known xb ->
  List.length (consts a) + List.length (consts b) <= u16_max ->
  exists a' b' g' Ca sa Cb sb,
    crossover_trees g a b = Ok (a', b', g')
    /\ xa = xplug Ca sa /\ xb = xplug Cb sb
    /\ denotes F a' (xplug Ca sb) /\ denotes F b' (xplug Cb sa)
    /\ x_ok D nf known (xplug Ca sb) /\ x_ok D nf known (xplug Cb sa)
    /\ List.length (nodes a') + List.length (nodes b') = List.length (nodes a) + List.length (nodes b)
    /\ var_names a' = var_names a /\ var_names b' = var_names b
    /\ List.length (consts a') <= List.length (nodes a') /\ List.length (consts b') <= List.length (nodes b').
Proof.
  intros T F D nf known g a b xa xb Ha Hb Hxa Hxb Hcap. pose proof (denotes_size _ _ _ Ha) as Sa. pose proof (denotes_size _ _ _ Hb) as Sb.
  destruct Ha as (ta & Ra & Ia & ->). destruct Hb as (tb & Rb & Ib & ->). unfold represents in *. rewrite Ra in Ia. rewrite Rb in Ib.
  unfold crossover_trees. rewrite Ra, Rb, !subtree_sizes_flatten. cbn [bind].
  destruct (usize_range_ok g 0 (List.length (flatten ta))) as (i & g1 & E1 & Hi); [rewrite flatten_length; apply tsize_pos|]. rewrite E1. cbn [bind].
  destruct (usize_range_ok g1 0 (List.length (flatten tb))) as (j & g2 & E2 & Hj); [rewrite flatten_length; apply tsize_pos|]. rewrite E2. cbn [bind].
  destruct (subtree_at_exists ta i) as [sa Hsa]; [rewrite <- flatten_length; lia|].
  destruct (subtree_at_exists tb j) as [sb Hsb]; [rewrite <- flatten_length; lia|].
  destruct (subtree_at_ctx _ _ _ Hsa) as (Ca & Ea & La). destruct (subtree_at_ctx _ _ _ Hsb) as (Cb & Eb & Lb).
  unfold subtree_range, index. rewrite (proj1 (subtree_at_spec _ _ _ Hsa)). cbn [expect bind].
  destruct (Nat.leb_spec (tsize sa) (i + 1)); [|lia]. cbn [bind].
  rewrite (proj1 (subtree_at_spec _ _ _ Hsb)). cbn [expect bind]. destruct (Nat.leb_spec (tsize sb) (j + 1)); [|lia]. cbn [bind].
  replace (i + 1 - tsize sa) with (List.length (before Ca)) by lia. replace (j + 1 - tsize sb) with (List.length (before Cb)) by lia.
  assert (Fa : flatten ta = before Ca ++ flatten sa ++ after Ca) by (rewrite Ea; apply flatten_tplug).
  assert (Fb : flatten tb = before Cb ++ flatten sb ++ after Cb) by (rewrite Eb; apply flatten_tplug).
  pose proof (flatten_length sa) as FLa. pose proof (flatten_length sb) as FLb.
  assert (S1 : slice_incl (flatten ta) (List.length (before Ca)) i = Ok (flatten sa)) by (rewrite Fa; apply slice_incl_mid; auto; lia).
  assert (S2 : slice_incl (flatten tb) (List.length (before Cb)) j = Ok (flatten sb)) by (rewrite Fb; apply slice_incl_mid; auto; lia).
  rewrite S1, S2. cbn [bind].
  change (ids_below (List.length (consts a)) (flatten ta)) in Ia. change (ids_below (List.length (consts b)) (flatten tb)) in Ib.
  pose proof Ia as Ia'. pose proof Ib as Ib'. rewrite Fa, !ids_below_app in Ia'. rewrite Fb, !ids_below_app in Ib'.
  destruct (remap_ok F (consts b) (consts a) sb) as (exa & sb' & R1 & I1 & T1 & L1 & X1); [tauto|lia|]. rewrite R1. cbn [bind].
  assert (P1 : forall (pre m post : list pnode), slice (pre ++ m ++ post) 0 (List.length pre) = Ok pre).
  { intros pre m post. unfold slice. rewrite app_length. cbn [Nat.add]. destruct (Nat.leb_spec (List.length pre) (List.length pre + List.length (m ++ post))); [|lia].
    cbn [skipn]. replace (List.length pre) with (List.length pre + 0) by lia. rewrite firstn_app_2. cbn. now rewrite app_nil_r. }
  assert (P2 : forall (pre m post : list pnode) k, List.length pre + List.length m = k + 1 -> skipn (k + 1) (pre ++ m ++ post) = post).
  { intros pre m post k Hk. rewrite app_assoc, skipn_app, skipn_all2 by (rewrite app_length; lia). rewrite app_length. now replace (k + 1 - (List.length pre + List.length m)) with 0 by lia. }
  rewrite Fa, P1, (P2 (before Ca)) by lia. cbn [bind].
  destruct (remap_ok F (consts a) (consts b) sa) as (exb & sa' & R2 & I2 & T2 & L2 & X2); [tauto|lia|]. rewrite R2. cbn [bind].
  rewrite Fb, P1, (P2 (before Cb)) by lia. cbn [bind].
  set (ca := const_at F (consts a)) in *. set (cb := const_at F (consts b)) in *.
  assert (D1 : denotes F (mkExpr (before Ca ++ flatten sb' ++ after Ca) (consts a ++ exa) (var_names a)) (xplug (map_ctx (lit ca) Ca) (lit cb sb))).
  { rewrite <- L1. apply (denotes_intro F Ca sa); auto. now rewrite <- Ea. }
  assert (D2 : denotes F (mkExpr (before Cb ++ flatten sa' ++ after Cb) (consts b ++ exb) (var_names b)) (xplug (map_ctx (lit cb) Cb) (lit ca sa))).
  { rewrite <- L2. apply (denotes_intro F Cb sb); auto. now rewrite <- Eb. }
  destruct (compress_denotes F _ _ D1) as (a' & ba & EA & DA & VA & _ & KA); [cbn [consts]; rewrite app_length; lia|].
  destruct (compress_denotes F _ _ D2) as (b' & bb & EB & DB & VB & _ & KB); [cbn [consts]; rewrite app_length; lia|].
  rewrite EA. cbn [bind]. rewrite EB. cbn [bind].
  rewrite <- (denotes_size _ _ _ DA) in KA. rewrite <- (denotes_size _ _ _ DB) in KB.
  exists a', b', g2, (map_ctx (lit ca) Ca), (lit ca sa), (map_ctx (lit cb) Cb), (lit cb sb).
  split; [reflexivity|]. split; [now rewrite Ea, lit_plug|]. split; [now rewrite Eb, lit_plug|]. split; auto. split; auto.
  rewrite Ea, lit_plug in Hxa. rewrite Eb, lit_plug in Hxb. pose proof (x_ok_plug _ _ _ _ _ Hxa) as [Ka1 Ka2]. pose proof (x_ok_plug _ _ _ _ _ Hxb) as [Kb1 Kb2].
  split; auto. split; auto. split; [|auto].
  rewrite <- Fa, <- Fb, <- Ra, <- Rb, Sa, Sb, (denotes_size _ _ _ DA), (denotes_size _ _ _ DB), Ea, Eb, !lit_plug.
  pose proof (xsize_plug (map_ctx (lit ca) Ca) (lit ca sa) (lit cb sb)). pose proof (xsize_plug (map_ctx (lit cb) Cb) (lit cb sb) (lit ca sa)). lia.
Qed.

(** ** C18 *)
Lemma random_expr_loop_ok {T} (F : FloatOps T) D nf known reg target : setting D nf known reg -> target <= u16_max ->
  forall fuel (g : rng T) e x, denotes F e x -> x_ok D nf known x -> xsize x <= target -> List.length (consts e) <= xsize x ->
  target < fuel + xsize x ->
  exists e' x' g', random_expr_loop fuel D reg nf target g (nodes e) (consts e) = Ok (nodes e', consts e', g')
    /\ denotes F e' x' /\ x_ok D nf known x' /\ xsize x' <= target /\ List.length (consts e') <= xsize x'
    /\ (xsize x' = target \/ forall a op, 1 <= a <= Nat.min (target - xsize x') D -> ~ registered reg a op).
Proof.
  intros (Hreg & Hnf & HD) Ht. induction fuel as [|fuel IH]; intros g e x Hd Hx Hsz Hcs Hfuel; cbn [random_expr_loop]; [lia|].
  pose proof (denotes_size _ _ _ Hd) as Hlen. rewrite Hlen.
  destruct (Nat.ltb_spec (xsize x) target) as [Hlt|Hge]; [|exists e, x, g; repeat split; auto; left; lia].
  rewrite total_ok by apply Hreg. cbn [bind]. 
  replace (Nat.min (Nat.min D (target - xsize x)) D) with (Nat.min (target - xsize x) D) by lia.
  destruct (Nat.ltb_spec 0 (count_up_to reg (Nat.min (target - xsize x) D))) as [Hc|Hc0].
  2:{ exists e, x, g. repeat split; auto. right. apply count_zero. lia. }
  destruct Hd as (t & Hr & Hids & ->). unfold represents in Hr. rewrite xsize_lit in *. rewrite Hr in *.
  destruct (sample_ok D known reg g (Nat.min (target - tsize t) D) Hreg) as (a & op & g2 & g3 & E2 & E3 & Ha & Hop & Hk).
  { now replace (Nat.min (Nat.min (target - tsize t) D) D) with (Nat.min (target - tsize t) D) by lia. }
  rewrite E2. cbn [bind]. rewrite E3. cbn [bind].
  pose proof (leaf_positions_ok _ _ _ _ _ Hx) as Hlp.
  destruct (pick_ok g3 (positions is_leaf_node (flatten t)) Hlp) as (i & g1 & E1 & Hi). rewrite E1. cbn [bind].
  apply positions_in in Hi as (n & Hn & Hleaf). destruct (node_ctx _ _ _ Hn) as (C & s & Et & Hl & Hroot & Hs).
  assert (Hsl : tleaf s) by (destruct s; cbn in *; subst n; cbn in *; try exact I; discriminate).
  destruct (random_leaves_ok nf a g1 (consts e) Hnf) as (ls & g5 & ex & ts & E5 & Hts & Hlt' & Hlv & Hex); [lia|].
  rewrite E5. cbn [bind]. rewrite as_u8_small by lia.
  assert (Enew : ls ++ [Op a (snd op)] = flatten (TOp (snd op) ts)) by (cbn [flatten]; rewrite Hts, Hlt'; reflexivity).
  rewrite Enew. rewrite (tleaf_size s Hsl) in Hl.
  assert (Ef : flatten t = before C ++ flatten s ++ after C) by (rewrite Et; apply flatten_tplug).
  assert (S2 : splice (flatten t) i i (flatten (TOp (snd op) ts)) = Ok (before C ++ flatten (TOp (snd op) ts) ++ after C)).
  { rewrite Ef. apply splice_mid; [lia|]. rewrite flatten_length, (tleaf_size s Hsl). lia. }
  rewrite S2. cbn [bind]. change (ids_below (List.length (consts e)) (flatten t)) in Hids.
  pose proof Hx as Hx0. pose proof Hids as Hids0. rewrite Et in Hx0, Hids0.
  destruct (grow_result F D nf known reg C s ts (snd op) (consts e) ex (var_names e) Hids0 Hx0 Hsl Hlv) as (x' & Hd' & Hx' & _ & Hsz');
    [lia|now rewrite Hlt'|now rewrite Hlt'|]. rewrite <- Et in Hsz'.
  destruct (IH g5 _ x' Hd' Hx') as (e2 & x2 & g6 & E6 & H1 & H2 & H3 & H4 & H5).
  - lia.
  - cbn [consts]. rewrite app_length. lia.
  - lia.
  - cbn [nodes consts] in E6. rewrite E6. exists e2, x2, g6. auto 10.
Qed.

Theorem C18_random_expr : forall (T : Type) (F : FloatOps T) D nf known reg target (g : rng T),
  setting D nf known reg -> 1 <= target <= u16_max ->
  exists e g' x, random_expr D reg nf target g = Ok (e, g')
    /\ denotes F e x /\ x_ok D nf known x /\ xsize x <= target /\ List.length (consts e) <= xsize x
    /\ (xsize x = target \/ forall a op, 1 <= a <= Nat.min (target - xsize x) D -> ~ registered reg a op).
Proof.
  intros T F D nf known reg target g Hset Ht. unfold random_expr. destruct (Nat.leb_spec 1 target); [|lia]. cbn [assert_ bind].
  destruct (random_leaf_ok g nf (@nil T)) as (l & g1 & ex & t & E & Hl & Hok & Hex); [apply Hset|cbn; lia|]. rewrite E. cbn [bind app] in *.
  assert (Hsz : tsize t = 1) by (apply tleaf_size; eapply leaf_ok_leaf; eauto).
  destruct (random_expr_loop_ok F D nf known reg target Hset ltac:(lia) (S target) g1 (mkExpr [l] ex []) (lit (const_at F ex) t)) as (e' & x' & g' & E' & H1 & H2 & H3 & H4 & H5).
  - exists t. split; [exact Hl|]. split; auto. cbn [nodes consts]. rewrite Hl. eapply leaf_ok_ids; eauto.
  - eapply leaf_ok_x; eauto.
  - rewrite xsize_lit. lia.
  - rewrite xsize_lit. cbn [consts]. lia.
  - rewrite xsize_lit. lia.
  - cbn [nodes consts] in E'. rewrite E'. cbn [bind]. exists (mkExpr (nodes e') (consts e') []), g', x'. split; [reflexivity|]. split; [|auto].
    destruct H1 as (t' & ? & ? & ?). exists t'. auto.
Qed.

Lemma append_ops_loop_ok {T} (F : FloatOps T) D nf known reg max_size : setting D nf known reg -> max_size <= u16_max ->
  forall n (g : rng T) e x, denotes F e x -> x_ok D nf known x -> xsize x <= max_size -> List.length (consts e) <= xsize x ->
  exists e' x' g', append_ops_loop n D reg nf max_size g (nodes e) (consts e) = Ok (nodes e', consts e', g')
    /\ denotes F e' x' /\ x_ok D nf known x' /\ xsize x' <= max_size /\ List.length (consts e') <= xsize x'
    /\ xsize x' <= xsize x + n * D
    /\ (xsize x + n <= xsize x' \/ forall a op, 1 <= a <= Nat.min (max_size - xsize x') D -> ~ registered reg a op).
Proof.
  intros (Hreg & Hnf & HD) Hm. induction n as [|n IH]; intros g e x Hd Hx Hsz Hcs; cbn [append_ops_loop].
  { exists e, x, g. repeat split; auto; lia. }
  pose proof (denotes_size _ _ _ Hd) as Hlen. rewrite Hlen.
  destruct (Nat.eqb_spec (max_size - xsize x) 0) as [E0|Hrem].
  { exists e, x, g. repeat split; auto; [lia|]. right. intros a op Ha. lia. }
  rewrite total_ok by apply Hreg. cbn [bind]. 
  replace (Nat.min (Nat.min (max_size - xsize x) D) D) with (Nat.min (max_size - xsize x) D) by lia.
  destruct (Nat.eqb_spec (count_up_to reg (Nat.min (max_size - xsize x) D)) 0) as [Hc0|Hc].
  { exists e, x, g. repeat split; auto; [lia|]. right. apply count_zero. lia. }
  destruct Hd as (t & Hr & Hids & ->). unfold represents in Hr. rewrite xsize_lit in *. rewrite Hr in *.
  destruct (sample_ok D known reg g (Nat.min (max_size - tsize t) D) Hreg) as (a & op & g2 & g3 & E2 & E3 & Ha & Hop & Hk).
  { replace (Nat.min (Nat.min (max_size - tsize t) D) D) with (Nat.min (max_size - tsize t) D) by lia. lia. }
  rewrite E2. cbn [bind]. rewrite E3. cbn [bind].
  pose proof (leaf_positions_ok _ _ _ _ _ Hx) as Hlp.
  destruct (positions is_leaf_node (flatten t)) as [|i0 l0] eqn:Ep; [congruence|]. rewrite <- Ep in *.
  destruct (pick_ok g3 (positions is_leaf_node (flatten t)) Hlp) as (i & g1 & E1 & Hi). rewrite E1. cbn [bind].
  apply positions_in in Hi as (nn & Hn & Hleaf). destruct (node_ctx _ _ _ Hn) as (C & s & Et & Hl & Hroot & Hs).
  assert (Hsl : tleaf s) by (destruct s; cbn in *; subst nn; cbn in *; try exact I; discriminate).
  destruct (random_leaves_ok nf a g1 (consts e) Hnf) as (ls & g5 & ex & ts & E5 & Hts & Hlt' & Hlv & Hex); [lia|].
  rewrite E5. cbn [bind]. rewrite as_u8_small by lia.
  assert (Enew : ls ++ [Op a (snd op)] = flatten (TOp (snd op) ts)) by (cbn [flatten]; rewrite Hts, Hlt'; reflexivity).
  rewrite Enew. rewrite (tleaf_size s Hsl) in Hl.
  assert (Ef : flatten t = before C ++ flatten s ++ after C) by (rewrite Et; apply flatten_tplug).
  assert (S2 : splice (flatten t) i i (flatten (TOp (snd op) ts)) = Ok (before C ++ flatten (TOp (snd op) ts) ++ after C)).
  { rewrite Ef. apply splice_mid; [lia|]. rewrite flatten_length, (tleaf_size s Hsl). lia. }
  rewrite S2. cbn [bind]. change (ids_below (List.length (consts e)) (flatten t)) in Hids.
  pose proof Hx as Hx0. pose proof Hids as Hids0. rewrite Et in Hx0, Hids0.
  destruct (grow_result F D nf known reg C s ts (snd op) (consts e) ex (var_names e) Hids0 Hx0 Hsl Hlv) as (x' & Hd' & Hx' & _ & Hsz');
    [lia|now rewrite Hlt'|now rewrite Hlt'|]. rewrite <- Et in Hsz'.
  destruct (IH g5 _ x' Hd' Hx') as (e2 & x2 & g6 & E6 & H1 & H2 & H3 & H4 & H5 & H6).
  - lia.
  - cbn [consts]. rewrite app_length. lia.
  - cbn [nodes consts] in E6. rewrite E6. exists e2, x2, g6. repeat split; auto; [lia|]. destruct H6 as [H6|H6]; [left; lia|right; auto].
Qed.

Theorem C18_random_expr_append_ops : forall (T : Type) (F : FloatOps T) D nf known reg n max_size (g : rng T),
  setting D nf known reg -> max_size <= u16_max ->
  exists e g' x, random_expr_append_ops F D reg nf n max_size g = Ok (e, g')
    /\ denotes F e x /\ x_ok D nf known x /\ xsize x <= Nat.max max_size 1 /\ xsize x <= 1 + n * D /\ List.length (consts e) <= xsize x
    /\ (1 + n <= xsize x \/ forall a op, 1 <= a <= Nat.min (Nat.max max_size 1 - xsize x) D -> ~ registered reg a op).
Proof.
  intros T F D nf known reg n max_size g Hset Ht. unfold random_expr_append_ops.
  assert (1 <= u16_max) by (unfold u16_max; lia).
  destruct (append_ops_loop_ok F D nf known reg (Nat.max max_size 1) Hset ltac:(lia) n g (expr_zero F) (XConst (fzero F))) as (e' & x' & g' & E & H1 & H2 & H3 & H4 & H5 & H6).
  - exists (TConst 0). split; [reflexivity|]. split; [|reflexivity]. intros i [Hi|[]]. injection Hi as <-. cbn. lia.
  - exact I.
  - cbn. lia.
  - cbn. lia.
  - rewrite E. cbn [bind].
    assert (Hd : denotes F (mkExpr (nodes e') (consts e') []) x') by (destruct H1 as (t' & ? & ? & ?); exists t'; auto).
    destruct (compress_denotes F _ _ Hd) as (e2 & b & E2 & Hd2 & _ & _ & Hl); [cbn [consts]; lia|].
    cbn [var_names expr_zero]. rewrite E2. cbn [bind]. exists e2, g', x'. cbn [xsize] in *. repeat split; auto.
Qed.

(** ** Cases *)
Definition demo_known (a o : nat) : bool :=
  match a, o with 1, 22 | 2, 0 | 2, 5 => true | _, _ => false end.
Definition demo_reg : registry := [[(1, 22)]; [(2, 0); (2, 5)]].
(** x0 + 2 * (- x1) *)
Definition demo_expr : expr Z := mkExpr [Var 0; Const 0; Var 1; Op 1 22; Op 2 5; Op 2 0] [2%Z] ["a"; "b"]%string.
Definition demo_x : xtree Z := XOp 0 [XVar 0; XOp 5 [XConst 2%Z; XOp 22 [XVar 1]]].
Definition demo_rng : rng Z := mkRng (fun n => n + 1) (fun n => Z.of_nat n).

Example C19_case_setting : setting 2 2 demo_known demo_reg /\ denotes zops demo_expr demo_x /\ x_ok 2 2 demo_known demo_x
  /\ List.length (consts demo_expr) + 2 <= u16_max.
Proof.
  split; [|split; [|split]].
  - split; [|split; [split; [lia|unfold u16_max; lia]|unfold u8_max; lia]]. split; [reflexivity|].
    intros a op Ha Hin. destruct a as [|[|[|a]]]; cbn in Hin; try lia; intuition (subst; auto).
  - exists (TOp 0 [TVar 0; TOp 5 [TConst 0; TOp 22 [TVar 1]]]). split; [reflexivity|]. split; [|reflexivity].
    intros i Hi. cbn in Hi. cbn. intuition (try discriminate). match goal with H : Const 0 = Const i |- _ => injection H as <- end. lia.
  - cbn. intuition lia.
  - cbn. unfold u16_max. lia.
Qed.

Example C21_case :
  (exists g', swap_operands demo_rng demo_expr = Ok (true, mkExpr [Const 0; Var 1; Op 1 22; Op 2 5; Var 0; Op 2 0] [2%Z] ["a"; "b"]%string, g'))
  /\ (exists g', rotate_tree demo_rng demo_expr = Ok (true, mkExpr [Const 0; Var 0; Var 1; Op 1 22; Op 2 0; Op 2 5] [2%Z] ["a"; "b"]%string, g')).
Proof. split; eexists; vm_compute; reflexivity. Qed.

Example C18_case : exists e g', random_expr 2 demo_reg 2 5 demo_rng = Ok (e, g') /\ List.length (nodes e) = 5.
Proof. do 2 eexists. split; vm_compute; reflexivity. Qed.

Example C20_case : exists a b g', crossover_trees demo_rng demo_expr (mkExpr [Const 1; Var 0; Op 2 0] [7%Z; 9%Z] []) = Ok (a, b, g')
  /\ nodes a <> nodes demo_expr.
Proof. do 3 eexists. split; [vm_compute; reflexivity|]. vm_compute. discriminate. Qed.

Print Assumptions C18_random_expr.
Print Assumptions C18_random_expr_append_ops.
Print Assumptions C19_mutate_constant.
Print Assumptions C19_mutate_operator.
Print Assumptions C19_mutate_feature.
Print Assumptions C19_insert.
Print Assumptions C19_prepend.
Print Assumptions C19_append.
Print Assumptions C19_add.
Print Assumptions C19_delete.
Print Assumptions C20_crossover.
Print Assumptions C21_swap.
Print Assumptions C21_rotate.
