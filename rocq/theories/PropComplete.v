(** Property C70: every variation can occur. The converse of C18-C21: those say that each result of a random
    operation is one of the changes its description allows; here, every change the description allows is the result
    for some draws. *)
From Verif Require Import Base BaseLemmas Node Tree NodeProofs SpanProofs Utils UtilsProofs PropUtils Rng Registry PropRegistry Lit Mutation
  MutationProofs RotateProofs Instances PropMutation PropEvolution.

(** ** Specification *)
(** A generator whose next natural draw, or next real draw, is the given one. *)
Definition next_nat {T} (k : nat) (g : rng T) : rng T :=
  mkRng (fun n => match n with 0 => k | S n => rg_nat g n end) (rg_real g).
Definition next_real {T} (v : T) (g : rng T) : rng T :=
  mkRng (rg_nat g) (fun n => match n with 0 => v | S n => rg_real g n end).

(** [g'] is [g] after some natural draws and the real draws [vs]. *)
Inductive draws {T} : list T -> rng T -> rng T -> Prop :=
| draws_nil g : draws [] g g
| draws_nat vs k g g' : draws vs g g' -> draws vs (next_nat k g) g'
| draws_real vs v g g' : draws vs g g' -> draws (v :: vs) (next_real v g) g'.

(** The mutation [m] can succeed with a result spelling the formula [x'], whatever draws come later, and drawing from
    the distribution of constants exactly the values [vs]. *)
Definition can {T} (F : FloatOps T) (vs : list T) (m : rng T -> mutated T) (x' : xtree T) : Prop :=
  forall g', exists g e', draws vs g g' /\ m g = Ok (true, e', g') /\ denotes F e' x'.

(** A leaf over [nf] features, and the values drawn to make it. *)
Definition leaf_fits {T} (nf : nat) (y : xtree T) : Prop := match y with XVar f => f < nf | XConst _ => True | XOp _ _ => False end.
Definition leaf_values {T} (y : xtree T) : list T := match y with XConst v => [v] | _ => [] end.

(** ** Draws *)
Lemma draws_trans {T} vs ws (g1 g2 g3 : rng T) : draws vs g1 g2 -> draws ws g2 g3 -> draws (vs ++ ws) g1 g3.
Proof. induction 1; intros H2; cbn; auto; constructor; auto. Qed.

Lemma draws_trans0 {T} vs (g1 g2 g3 : rng T) : draws [] g1 g2 -> draws vs g2 g3 -> draws vs g1 g3.
Proof. intros H1 H2. exact (draws_trans [] vs _ _ _ H1 H2). Qed.

Lemma usize_range_draw {T} lo hi k (g' : rng T) : lo <= k < hi -> exists g, draws [] g g' /\ usize_range g lo hi = Ok (k, g').
Proof.
  intros H. exists (next_nat (k - lo) g'). split; [constructor; constructor|]. unfold usize_range, next_nat, shift. cbn [rg_nat rg_real].
  destruct (Nat.ltb_spec lo hi); [|lia]. rewrite Nat.mod_small by lia. replace (lo + (k - lo)) with k by lia. destruct g'. reflexivity.
Qed.

Lemma rng_bool_draw {T} b (g' : rng T) : exists g, draws [] g g' /\ rng_bool g = (b, g').
Proof.
  exists (next_nat (if b then 1 else 0) g'). split; [constructor; constructor|]. unfold rng_bool, next_nat, shift. cbn [rg_nat rg_real].
  destruct b, g'; reflexivity.
Qed.

Lemma rng_real_draw {T} v (g' : rng T) : exists g, draws [v] g g' /\ rng_real g = (v, g').
Proof.
  exists (next_real v g'). split; [constructor; constructor|]. unfold rng_real, next_real, shift. cbn [rg_nat rg_real]. destruct g'; reflexivity.
Qed.

Lemma pick_draw {T} l i (g' : rng T) : In i l -> exists g, draws [] g g' /\ pick g l = Ok (i, g').
Proof.
  intros H. apply In_nth_error in H as [k Hk]. assert (k < List.length l) by (apply nth_error_Some; congruence).
  destruct (usize_range_draw 0 (List.length l) k g') as (g & Hd & E); [lia|]. exists g. split; auto.
  unfold pick. rewrite E. cbn [bind]. unfold index. rewrite Hk. reflexivity.
Qed.

Lemma sample_op_draw {T} D reg a op (g' : rng T) : List.length reg = D -> 1 <= a <= D -> registered reg a op ->
  exists g, draws [] g g' /\ sample_op reg g a = Ok ((a, op), g').
Proof.
  intros HD Ha Hr. unfold registered in Hr. apply (In_nth_error (A := opid)) in Hr as [k Hk]. change (nth_error (A := opid) (ops_of_arity reg a) k = Some (a, op)) in Hk.
  assert (k < List.length (ops_of_arity reg a)) by (apply (nth_error_Some (A := opid)); rewrite Hk; discriminate).
  destruct (usize_range_draw 0 (List.length (ops_of_arity reg a)) k g') as (g & Hd & E); [lia|]. exists g. split; auto.
  unfold sample_op. destruct a as [|a]; [lia|]. unfold index at 1. unfold ops_of_arity in *. replace (S a - 1) with a in * by lia.
  rewrite (nth_error_nth' reg []) by lia. cbn [expect bind]. rewrite E. cbn [bind]. unfold index. rewrite Hk. reflexivity.
Qed.

Lemma sample_draw {T} D reg max a op (g' : rng T) : List.length reg = D -> 1 <= a <= Nat.min max D -> registered reg a op ->
  exists g g1, draws [] g g' /\ sample_arity D reg g max = Ok (a, g1) /\ sample_op reg g1 a = Ok ((a, op), g').
Proof.
  intros HD Ha Hr. destruct (sample_op_draw D reg a op g' HD) as (g1 & D1 & E1); [lia|auto|].
  set (m := Nat.min max D) in *.
  assert (Ec : count_up_to reg a = count_up_to reg (a - 1) + List.length (ops_of_arity reg a)).
  { replace a with (S (a - 1)) at 1 3 by lia. apply count_app. }
  assert (Hlen : 1 <= List.length (ops_of_arity reg a)) by (unfold registered in Hr; destruct (ops_of_arity reg a); [destruct Hr|cbn; lia]).
  assert (Hm : count_up_to reg a <= count_up_to reg m) by (apply count_mono; lia).
  destruct (usize_range_draw 0 (count_up_to reg m) (count_up_to reg (a - 1)) g1) as (g & D2 & E2); [lia|].
  exists g, g1. split; [eapply draws_trans0; eauto|]. split; auto. unfold sample_arity. fold m.
  rewrite sum_nops_ok by (subst m; lia). cbn [bind]. destruct (Nat.ltb_spec 0 (count_up_to reg m)); [|lia]. cbn [assert_ bind]. rewrite E2. cbn [bind].
  destruct (pick_arity_spec reg m 1 (count_up_to reg (a - 1))) as (a' & Ea & Ha' & Hb); [subst m; lia|lia| |].
  { change (count_up_to reg (1 - 1)) with 0. replace (1 + m - 1) with m by lia. lia. }
  rewrite Ea. cbn [bind]. change (count_up_to reg (1 - 1)) with 0 in Hb.
  assert (a' = a); [|subst; reflexivity]. destruct (Nat.lt_trichotomy a' a) as [Hlt|[Heq|Hgt]]; auto.
  - pose proof (count_mono reg a' (a - 1)). lia.
  - pose proof (count_mono reg a (a' - 1)). lia.
Qed.

Lemma leaf_draw {T} (F : FloatOps T) nf (cs : list T) y : leaf_fits nf y -> nf <= S u16_max -> List.length cs <= u16_max ->
  exists l t, [l] = flatten t /\ leaf_ok nf (List.length (cs ++ leaf_values y)) t /\ lit (const_at F (cs ++ leaf_values y)) t = y
    /\ forall g' : rng T, exists g, draws (leaf_values y) g g' /\ random_leaf g nf cs = Ok (l, g', cs ++ leaf_values y).
Proof.
  intros Hy Hnf Hl. destruct y as [f|v|]; cbn [leaf_fits leaf_values] in *; [| |contradiction].
  - exists (Var f), (TVar f). split; auto. split; auto. split; auto. intros g'.
    destruct (usize_range_draw 0 nf f g') as (g2 & D2 & E2); [lia|]. destruct (rng_bool_draw false g2) as (g1 & D1 & E1).
    exists g1. split; [eapply draws_trans0; eauto|]. unfold random_leaf. rewrite E1, E2. cbn [bind].
    destruct (Nat.leb_spec f u16_max); [|lia]. rewrite app_nil_r. reflexivity.
  - exists (Const (List.length cs)), (TConst (List.length cs)). split; auto. rewrite app_length. cbn [leaf_ok List.length lit]. split; [lia|]. split.
    { unfold const_at. now rewrite app_nth2, Nat.sub_diag by lia. }
    intros g'. destruct (rng_real_draw v g') as (g2 & D2 & E2). destruct (rng_bool_draw true g2) as (g1 & D1 & E1).
    exists g1. split; [eapply draws_trans0; eauto|]. unfold random_leaf. rewrite E1, E2.
    destruct (Nat.leb_spec (List.length cs) u16_max); [|lia]. reflexivity.
Qed.

Lemma leaf_values_len {T} (y : xtree T) : List.length (leaf_values y) <= 1.
Proof. destruct y; cbn; lia. Qed.
Lemma leaf_values_all {T} (ys : list (xtree T)) : List.length (flat_map leaf_values ys) <= List.length ys.
Proof. induction ys as [|y ys IH]; cbn; [lia|]. rewrite app_length. pose proof (leaf_values_len y). lia. Qed.

Lemma leaves_draw {T} (F : FloatOps T) nf ys : forall (cs : list T), Forall (leaf_fits nf) ys -> nf <= S u16_max ->
  List.length cs + List.length ys <= S u16_max ->
  let cs' := cs ++ flat_map leaf_values ys in
  exists ts, Forall (leaf_ok nf (List.length cs')) ts /\ map (lit (const_at F cs')) ts = ys
    /\ forall g' : rng T, exists g, draws (flat_map leaf_values ys) g g' /\ random_leaves (List.length ys) g nf cs = Ok (flat_map flatten ts, g', cs').
Proof.
  induction ys as [|y ys IH]; intros cs Hys Hnf Hl; cbn [random_leaves flat_map List.length].
  - exists []. rewrite app_nil_r. cbn. split; [constructor|]. split; auto. intros g'. exists g'. split; [constructor|auto].
  - inversion Hys as [|? ? Hy Hys']; subst. cbn [List.length] in Hl. pose proof (leaf_values_len y) as Hlv.
    destruct (IH (cs ++ leaf_values y) Hys' Hnf) as (ts & Hts & Hm & Hd2); [rewrite app_length; lia|].
    destruct (leaf_draw F nf cs y Hy Hnf) as (l & t & Hlt & Hok & Hv & Hd1); [lia|].
    exists (t :: ts). rewrite app_assoc. split.
    { constructor; auto. eapply leaf_ok_le; [|exact Hok]. rewrite !app_length; lia. }
    split. { cbn [map]. rewrite Hm. f_equal. rewrite lit_old; auto. eapply leaf_ok_ids; eauto. }
    intros g'. destruct (Hd2 g') as (g2 & D2 & E2). destruct (Hd1 g2) as (g1 & D1 & E1).
    exists g1. split; [eapply draws_trans; eauto|]. rewrite E1. cbn [bind]. rewrite E2. cbn [bind flat_map]. rewrite <- Hlt. reflexivity.
Qed.

Lemma carry_after_draw {T} (F : FloatOps T) nf old ys : forall j carry (cs : list T) (g' : rng T), Forall (leaf_fits nf) ys -> nf <= S u16_max ->
  List.length cs + List.length ys <= S u16_max -> carry < j ->
  let cs' := cs ++ flat_map leaf_values ys in
  exists g ts, draws (flat_map leaf_values ys) g g' /\ carry_children j (List.length ys) carry old g nf cs = Ok (flat_map flatten ts, g', cs')
    /\ Forall (leaf_ok nf (List.length cs')) ts /\ map (lit (const_at F cs')) ts = ys.
Proof.
  induction ys as [|y ys IH]; intros j carry cs g' Hys Hnf Hl Hj; cbn [carry_children flat_map List.length].
  - exists g', []. rewrite app_nil_r. cbn. split; [constructor|auto].
  - inversion Hys as [|? ? Hy Hys']; subst. cbn [List.length] in Hl. pose proof (leaf_values_len y) as Hlv.
    destruct (IH (S j) carry (cs ++ leaf_values y) g' Hys' Hnf) as (g2 & ts & D2 & E2 & Hts & Hm); [rewrite app_length; lia|lia|].
    destruct (leaf_draw F nf cs y Hy Hnf) as (l & t & Hlt & Hok & Hv & Hd1); [lia|]. destruct (Hd1 g2) as (g1 & D1 & E1).
    exists g1, (t :: ts). split; [eapply draws_trans; eauto|]. destruct (Nat.eqb_spec j carry); [lia|]. rewrite E1. cbn [bind]. rewrite E2. cbn [bind].
    rewrite app_assoc. split; [cbn [flat_map]; rewrite <- Hlt; reflexivity|]. split.
    { constructor; auto. eapply leaf_ok_le; [|exact Hok]. rewrite !app_length; lia. }
    cbn [map]. rewrite Hm. f_equal. rewrite lit_old; auto. eapply leaf_ok_ids; eauto.
Qed.

Lemma carry_draw {T} (F : FloatOps T) nf s yr yl : forall j (cs : list T) (g' : rng T), Forall (leaf_fits nf) (yl ++ yr) -> nf <= S u16_max ->
  List.length cs + List.length (yl ++ yr) <= S u16_max ->
  let cs' := cs ++ flat_map leaf_values (yl ++ yr) in
  exists g tl tr, draws (flat_map leaf_values (yl ++ yr)) g g'
    /\ carry_children j (S (List.length (yl ++ yr))) (j + List.length yl) (flatten s) g nf cs = Ok (flat_map flatten (tl ++ s :: tr), g', cs')
    /\ Forall (leaf_ok nf (List.length cs')) (tl ++ tr) /\ map (lit (const_at F cs')) tl = yl /\ map (lit (const_at F cs')) tr = yr.
Proof.
  induction yl as [|y yl IH]; intros j cs g' Hys Hnf Hl; cbn [app] in *.
  - cbn [List.length carry_children]. rewrite Nat.add_0_r, Nat.eqb_refl. cbn [bind].
    destruct (carry_after_draw F nf (flatten s) yr (S j) j cs g' Hys Hnf) as (g & tr & D1 & E1 & Htr & Hm); [lia|lia|].
    exists g, [], tr. split; auto. rewrite E1. cbn [bind app flat_map map]. auto.
  - inversion Hys as [|? ? Hy Hys']; subst. cbn [List.length flat_map] in *. pose proof (leaf_values_len y) as Hlv.
    destruct (IH (S j) (cs ++ leaf_values y) g' Hys' Hnf) as (g2 & tl & tr & D2 & E2 & Hts & Hm1 & Hm2); [rewrite app_length; lia|].
    destruct (leaf_draw F nf cs y Hy Hnf) as (l & t & Hlt & Hok & Hv & Hd1); [lia|]. destruct (Hd1 g2) as (g1 & D1 & E1).
    exists g1, (t :: tl), tr. split; [eapply draws_trans; eauto|]. cbn [carry_children].
    destruct (Nat.eqb_spec j (j + S (List.length yl))); [lia|]. rewrite E1. cbn [bind].
    replace (j + S (List.length yl)) with (S j + List.length yl) by lia. cbn [carry_children] in E2. rewrite E2. cbn [bind].
    rewrite app_assoc. split; [cbn [app flat_map]; rewrite <- Hlt; reflexivity|]. split.
    { cbn [app]. constructor; auto. eapply leaf_ok_le; [|exact Hok]. rewrite !app_length; lia. }
    cbn [map]. rewrite Hm1. split; auto. f_equal. rewrite lit_old; auto. eapply leaf_ok_ids; eauto.
Qed.

(** A place in the formula is a place in the list of nodes. *)
Lemma find_place {T} (F : FloatOps T) (e : expr T) C (y : xtree T) : denotes F e (xplug C y) ->
  exists C' s i, represents e (tplug C' s) /\ ids_below (List.length (consts e)) (flatten (tplug C' s))
    /\ map_ctx (lit (const_at F (consts e))) C' = C /\ lit (const_at F (consts e)) s = y
    /\ List.length (before C') + tsize s = i + 1 /\ subtree_at (tplug C' s) i s /\ i < List.length (flatten (tplug C' s)).
Proof.
  intros (t & Hr & Hc & E). symmetry in E. apply lit_plug_inv in E as (C' & s & -> & E1 & E2). unfold represents in Hr. rewrite Hr in Hc.
  exists C', s, (List.length (before C') + tsize s - 1). pose proof (tsize_pos s). pose proof (ctx_subtree_at C' s) as Hs.
  repeat split; auto; [lia|]. rewrite flatten_length. now apply subtree_at_lt in Hs.
Qed.

(** ** Theorems *)
(** Every constant can be the one that is multiplied, by every factor the formula for factors gives. *)
Theorem C70_constant : forall (T : Type) (F : FloatOps T) factor (e : expr T) (x : xtree T) ci v exponent bigger negdraw (g' : rng T),
  denotes F e x -> In (Const ci) (nodes e) -> nth_error (consts e) ci = Some v ->
  exists g, draws [exponent; negdraw] g g'
    /\ mutate_constant F factor g e = Ok (true, mkExpr (nodes e) (upd (consts e) ci (fmul F v (factor exponent bigger negdraw))) (var_names e), g').
Proof.
  intros T F factor e x ci v ex bg ng g' Hd Hin Hv.
  destruct (rng_real_draw ng g') as (g3 & D3 & E3). destruct (rng_bool_draw bg g3) as (g2 & D2 & E2). destruct (rng_real_draw ex g2) as (g1 & D1 & E1).
  apply In_nth_error in Hin as [i Hi]. assert (Hp : In i (positions is_const (nodes e))) by (apply positions_in; exists (Const ci); auto).
  destruct (pick_draw _ _ g1 Hp) as (g & D0 & E0). exists g. split.
  { eapply draws_trans0; [exact D0|]. eapply (draws_trans [ex] [ng]); [exact D1|]. eapply draws_trans0; eauto. }
  unfold mutate_constant. destruct (positions is_const (nodes e)) as [|p ps] eqn:Ep; [destruct Hp|]. rewrite E0. cbn [bind].
  unfold index. rewrite Hi. cbn [expect bind]. rewrite E1, E2, E3, Hv. cbn [expect bind]. unfold set_index.
  assert (ci < List.length (consts e)) by (apply nth_error_Some; congruence). destruct (Nat.ltb_spec ci (List.length (consts e))); [|lia]. reflexivity.
Qed.

Theorem C70_operator : forall (T : Type) (F : FloatOps T) D nf known reg (e : expr T) C op (cs : list (xtree T)) op',
  denotes F e (xplug C (XOp op cs)) -> x_ok D nf known (xplug C (XOp op cs)) -> reg_ok D known reg -> registered reg (List.length cs) op' ->
  can F [] (fun g => mutate_operator reg g e) (xplug C (XOp op' cs)).
Proof.
  intros T F D nf known reg e C op cs op' Hd Hx [HD _] Hreg g'.
  apply x_ok_plug in Hx as [Hxs _]. cbn [x_ok] in Hxs. destruct Hxs as (Hlen & _ & _).
  destruct (find_place F e _ _ Hd) as (C' & s & i & Hr & Hc & <- & Es & Hl & Hs & Hi). unfold represents in Hr.
  destruct s as [|?|op0 ts]; try discriminate. cbn in Es. injection Es as -> <-. rewrite map_length in *.
  destruct (sample_op_draw D reg (List.length ts) op' g' HD Hlen Hreg) as (g1 & D1 & E1).
  assert (Hp : In i (positions is_op (nodes e))).
  { apply positions_in. rewrite Hr. eexists. split; [exact (subtree_at_root _ _ _ Hs)|reflexivity]. }
  destruct (pick_draw _ _ g1 Hp) as (g & D0 & E0).
  assert (Ef : flatten (tplug C' (TOp op ts)) = (before C' ++ flat_map flatten ts) ++ Op (List.length ts) op :: after C').
  { rewrite flatten_tplug. cbn [flatten]. rewrite <- !app_assoc. reflexivity. }
  assert (Si : set_index (nodes e) i (Op (List.length ts) op') = Ok (before C' ++ flatten (TOp op' ts) ++ after C')).
  { rewrite Hr, Ef, set_index_mid; [cbn [flatten]; now rewrite <- !app_assoc|]. rewrite app_length, flat_map_flatten_length. cbn [tsize] in Hl. lia. }
  exists g. eexists. split; [eapply draws_trans0; eauto|]. split.
  { unfold mutate_operator. destruct (positions is_op (nodes e)) as [|p ps] eqn:Ep; [destruct Hp|]. rewrite E0. cbn [bind].
    unfold index at 1. rewrite Hr at 1. rewrite (subtree_at_root _ _ _ Hs). cbn [expect bind root_node]. rewrite nops_ok by lia. cbn [bind].
    unfold registered in Hreg. destruct (ops_of_arity reg (List.length ts)) as [|o os] eqn:Eo; [destruct Hreg|]. cbn [List.length Nat.eqb].
    rewrite E1. cbn [bind snd]. rewrite Si. cbn [bind]. reflexivity. }
  unfold with_nodes. cbn [nodes consts var_names]. apply (denotes_intro0 F C' (TOp op ts)); auto.
  rewrite flatten_tplug in Hc. cbn [flatten] in *. rewrite !ids_below_app in *. repeat split; try tauto. intros j [Hj|[]]. discriminate.
Qed.

Theorem C70_feature : forall (T : Type) (F : FloatOps T) nf (e : expr T) C f f',
  denotes F e (xplug C (XVar f)) -> f < nf -> f' < nf -> f' <> f -> nf <= S u16_max ->
  can F [] (fun g => mutate_feature nf g e) (xplug C (XVar f')).
Proof.
  intros T F nf e C f f' Hd Hf Hf' Hne Hnf g'.
  destruct (find_place F e _ _ Hd) as (C' & s & i & Hr & Hc & <- & Es & Hl & Hs & Hi). unfold represents in Hr.
  destruct s as [f0|?|]; try discriminate. cbn in Es. injection Es as ->.
  destruct (usize_range_draw 0 nf f' g') as (g1 & D1 & E1); [lia|].
  assert (Hp : In i (positions is_var (nodes e))).
  { apply positions_in. rewrite Hr. eexists. split; [exact (subtree_at_root _ _ _ Hs)|reflexivity]. }
  destruct (pick_draw _ _ g1 Hp) as (g & D0 & E0).
  assert (Si : set_index (nodes e) i (Var f') = Ok (before C' ++ flatten (TVar f') ++ after C')).
  { rewrite Hr, flatten_tplug. cbn [flatten app]. rewrite set_index_mid; [reflexivity|]. cbn [tsize] in Hl. lia. }
  exists g. eexists. split; [eapply draws_trans0; eauto|]. split.
  { unfold mutate_feature. destruct (Nat.leb_spec nf 1); [lia|]. destruct (positions is_var (nodes e)) as [|p ps] eqn:Ep; [destruct Hp|]. rewrite E0. cbn [bind].
    unfold index at 1. rewrite Hr at 1. rewrite (subtree_at_root _ _ _ Hs). cbn [expect bind root_node].
    destruct (Nat.leb_spec nf f); [lia|]. cbn [draw_feature]. rewrite E1. cbn [bind]. destruct (Nat.eqb_spec f' f); [contradiction|]. cbn [negb].
    destruct (Nat.leb_spec f' u16_max); [|lia]. cbn [bind]. rewrite Si. cbn [bind]. reflexivity. }
  unfold with_nodes. cbn [nodes consts var_names]. apply (denotes_intro0 F C' (TVar f)); auto. intros j [Hj|[]]. discriminate.
Qed.

Theorem C70_swap : forall (T : Type) (F : FloatOps T) (e : expr T) C op (a b : xtree T),
  denotes F e (xplug C (XOp op [a; b])) ->
  can F [] (fun g => swap_operands g e) (xplug C (XOp op [b; a])).
Proof.
  intros T F e C op a b Hd g'.
  destruct (find_place F e _ _ Hd) as (C' & s & i & Hr & Hc & <- & Es & Hl & Hs & Hi). unfold represents in Hr.
  destruct s as [|?|op0 ts]; try discriminate. cbn in Es. injection Es as -> Es.
  destruct ts as [|ta [|tb [|? ?]]]; try discriminate. cbn in Es. injection Es as <- <-.
  assert (Hp : In i (positions is_binary (nodes e))).
  { apply positions_in. rewrite Hr. eexists. split; [exact (subtree_at_root _ _ _ Hs)|reflexivity]. }
  destruct (pick_draw _ _ g' Hp) as (g & D0 & E0).
  pose proof (tsize_pos ta). pose proof (tsize_pos tb). pose proof (flatten_length ta). pose proof (flatten_length tb).
  exists g. eexists. split; [exact D0|]. split.
  { unfold swap_operands. destruct (positions is_binary (nodes e)) as [|p ps] eqn:Ep; [destruct Hp|]. rewrite Hr. rewrite subtree_sizes_flatten. cbn [bind].
    rewrite E0. cbn [bind]. unfold index at 1. rewrite (subtree_at_root _ _ _ Hs). cbn [expect bind root_node]. unfold subtree_range, index at 1.
    rewrite (proj1 (subtree_at_spec _ _ _ Hs)). cbn [expect bind].
    destruct (Nat.leb_spec (tsize (TOp op [ta; tb])) (i + 1)); [|lia]. cbn [bind].
    pose proof (child_ranges_flatten _ _ _ _ Hs) as Hcr. cbn [List.length] in Hcr. rewrite Hcr. cbn [bind spans index nth_error expect fst snd].
    assert (Est : i + 1 - tsize (TOp op [ta; tb]) = List.length (before C')) by lia. rewrite Est.
    unfold index. cbn [nth_error expect bind fst snd].
    assert (Ef : flatten (tplug C' (TOp op [ta; tb])) = before C' ++ flatten ta ++ flatten tb ++ [Op 2 op] ++ after C').
    { rewrite flatten_tplug. cbn. rewrite app_nil_r, <- !app_assoc. reflexivity. }
    assert (S1 : slice_incl (flatten (tplug C' (TOp op [ta; tb]))) (List.length (before C') + tsize ta) (List.length (before C') + tsize ta + tsize tb - 1) = Ok (flatten tb)).
    { rewrite Ef, (app_assoc (before C')). apply slice_incl_mid; rewrite ?app_length; lia. }
    assert (S2 : slice_incl (flatten (tplug C' (TOp op [ta; tb]))) (List.length (before C')) (List.length (before C') + tsize ta - 1) = Ok (flatten ta)).
    { rewrite Ef. apply slice_incl_mid; lia. }
    rewrite S1, S2. cbn [bind].
    assert (S3 : splice (flatten (tplug C' (TOp op [ta; tb]))) (List.length (before C')) i (flatten tb ++ flatten ta ++ [Op 2 op])
      = Ok (before C' ++ flatten (TOp op [tb; ta]) ++ after C')).
    { rewrite flatten_tplug. rewrite splice_mid; auto; [|rewrite flatten_length; exact Hl]. cbn. rewrite app_nil_r, <- !app_assoc. reflexivity. }
    rewrite S3. cbn [bind]. reflexivity. }
  unfold with_nodes. cbn [nodes consts var_names]. apply (denotes_intro0 F C' (TOp op [ta; tb])); auto.
  rewrite flatten_tplug, !ids_below_app in Hc. destruct Hc as (_ & Hc & _). cbn in Hc |- *. rewrite app_nil_r in *. rewrite !ids_below_app in *. tauto.
Qed.

(** The value of a new operator node over old and new parts. *)
Lemma insert_denotes {T} (F : FloatOps T) C' s op tl tr yl yr cs ex names nf :
  ids_below (List.length cs) (flatten (tplug C' s)) -> Forall (leaf_ok nf (List.length (cs ++ ex))) (tl ++ tr) ->
  map (lit (const_at F (cs ++ ex))) tl = yl -> map (lit (const_at F (cs ++ ex))) tr = yr ->
  denotes F (mkExpr (before C' ++ flatten (TOp op (tl ++ s :: tr)) ++ after C') (cs ++ ex) names)
    (xplug (map_ctx (lit (const_at F cs)) C') (XOp op (yl ++ lit (const_at F cs) s :: yr))).
Proof.
  intros Hc Hlv <- <-. assert (Hs : ids_below (List.length cs) (flatten s)) by (rewrite flatten_tplug, !ids_below_app in Hc; tauto).
  rewrite <- (lit_old F cs ex s Hs).
  replace (XOp op (map (lit (const_at F (cs ++ ex))) tl ++ lit (const_at F (cs ++ ex)) s :: map (lit (const_at F (cs ++ ex))) tr))
    with (lit (const_at F (cs ++ ex)) (TOp op (tl ++ s :: tr))) by (cbn [lit]; rewrite map_app; reflexivity).
  apply (denotes_intro F C' s); auto. cbn [flatten]. rewrite flat_map_app'. cbn [flat_map]. rewrite !ids_below_app.
  apply Forall_app in Hlv as [H1 H2].
  assert (G : forall ts, Forall (leaf_ok nf (List.length (cs ++ ex))) ts -> ids_below (List.length (cs ++ ex)) (flat_map flatten ts)).
  { intros ts Hts i Hi. apply in_flat_map in Hi as (t & Ht & Hi). rewrite Forall_forall in Hts. eapply leaf_ok_ids; [apply Hts; eauto|auto]. }
  repeat split; auto. - eapply ids_below_le; [|exact Hs]. rewrite app_length; lia. - intros j [Hj|[]]. discriminate.
Qed.

Lemma registered_D D reg a op : List.length reg = D -> registered reg a op -> a <= D.
Proof.
  intros HD H. unfold registered, ops_of_arity in H. destruct (Nat.le_gt_cases a D); auto. rewrite nth_overflow in H by lia. destruct H.
Qed.

(** [can], for operations that renumber the constants: afterwards there are no more constants than nodes. *)
Definition can_small {T} (F : FloatOps T) (vs : list T) (m : rng T -> mutated T) (x' : xtree T) : Prop :=
  forall g', exists g e', draws vs g g' /\ m g = Ok (true, e', g') /\ denotes F e' x' /\ List.length (consts e') <= xsize x'.

Theorem C70_insert : forall (T : Type) (F : FloatOps T) D nf known reg (e : expr T) C (s : xtree T) op l r,
  denotes F e (xplug C s) -> setting D nf known reg -> List.length (consts e) + D <= u16_max ->
  Forall (leaf_fits nf) (l ++ r) -> registered reg (S (List.length (l ++ r))) op ->
  can_small F (flat_map leaf_values (l ++ r)) (fun g => insert_random_op D reg nf g e) (xplug C (XOp op (l ++ s :: r))).
Proof.
  intros T F D nf known reg e C s op l r Hd (Hreg & Hnf & HD) Hcap Hlv Hr g'. pose proof (proj1 Hreg) as HlD.
  pose proof (registered_D _ _ _ _ HlD Hr) as Ha.
  destruct (find_place F e _ _ Hd) as (C' & ts & i & Hrep & Hc & <- & <- & Hl & Hs & Hi). unfold represents in Hrep.
  destruct (carry_draw F nf ts r l 0 (consts e) g' Hlv ltac:(lia)) as (g4 & tl & tr & D4 & E4 & Hok & Hml & Hmr); [lia|].
  destruct (usize_range_draw 0 (S (List.length (l ++ r))) (0 + List.length l) g4) as (g3 & D3 & E3); [rewrite app_length; lia|].
  destruct (sample_draw D reg D (S (List.length (l ++ r))) op g3 HlD) as (g1 & g2 & D1 & E1 & E2); [rewrite Nat.min_id; lia|auto|].
  destruct (usize_range_draw 0 (List.length (nodes e)) i g1) as (g & D0 & E0); [rewrite Hrep; lia|].
  pose proof (insert_denotes F C' ts op tl tr l r (consts e) (flat_map leaf_values (l ++ r)) (var_names e) nf Hc Hok Hml Hmr) as Hden.
  destruct (compress_denotes F _ _ Hden) as (e' & b & Ec & Hd' & _ & _ & Hsz).
  { cbn [consts]. rewrite app_length. pose proof (leaf_values_all (l ++ r)). lia. }
  exists g, e'. split. { eapply draws_trans0; [exact D0|]. eapply draws_trans0; [exact D1|]. eapply draws_trans0; eauto. }
  split; [|auto]. unfold insert_random_op.
  assert (Hne' : exists n ns, nodes e = n :: ns) by (rewrite Hrep in *; destruct (flatten (tplug C' ts)); [cbn in *; lia|eauto]).
  destruct Hne' as (n & ns & En). rewrite En, <- En. rewrite (total_ok D reg D HlD), Nat.min_id. cbn [bind].
  destruct (Nat.eqb_spec (count_up_to reg D) 0) as [Ez|_]; [exfalso; revert Hr; eapply count_zero; eauto; lia|].
  rewrite E0. cbn [bind]. rewrite Hrep. rewrite subtree_sizes_flatten. cbn [bind]. unfold subtree_range, index at 1.
  rewrite (proj1 (subtree_at_spec _ _ _ Hs)). cbn [expect bind]. destruct (Nat.leb_spec (tsize ts) (i + 1)); [|lia]. cbn [bind].
  replace (i + 1 - tsize ts) with (List.length (before C')) by lia.
  assert (S1 : slice_incl (flatten (tplug C' ts)) (List.length (before C')) i = Ok (flatten ts)).
  { rewrite flatten_tplug. apply slice_incl_mid; auto. rewrite flatten_length; lia. }
  rewrite S1. cbn [bind]. rewrite E1. cbn [bind]. rewrite E2. cbn [bind snd]. rewrite E3. cbn [bind]. rewrite E4. cbn [bind]. rewrite as_u8_small by lia.
  assert (Hlen : List.length (tl ++ ts :: tr) = S (List.length (l ++ r))).
  { rewrite <- Hml, <- Hmr, !app_length. cbn [List.length]. rewrite !map_length. lia. }
  assert (S2 : splice (flatten (tplug C' ts)) (List.length (before C')) i (flat_map flatten (tl ++ ts :: tr) ++ [Op (S (List.length (l ++ r))) op])
      = Ok (before C' ++ flatten (TOp op (tl ++ ts :: tr)) ++ after C')).
  { rewrite flatten_tplug. rewrite splice_mid; auto; [|rewrite flatten_length; lia]. cbn [flatten]. now rewrite Hlen. }
  rewrite S2. cbn [bind]. rewrite Ec. reflexivity.
Qed.

Theorem C70_prepend : forall (T : Type) (F : FloatOps T) D nf known reg (e : expr T) (x : xtree T) op l r,
  denotes F e x -> setting D nf known reg -> List.length (consts e) + D <= u16_max ->
  Forall (leaf_fits nf) (l ++ r) -> registered reg (S (List.length (l ++ r))) op ->
  can_small F (flat_map leaf_values (l ++ r)) (fun g => prepend_random_op D reg nf g e) (XOp op (l ++ x :: r)).
Proof.
  intros T F D nf known reg e x op l r Hd (Hreg & Hnf & HD) Hcap Hlv Hr g'. pose proof (proj1 Hreg) as HlD.
  pose proof (registered_D _ _ _ _ HlD Hr) as Ha.
  destruct Hd as (t & Hrep & Hc & ->). unfold represents in Hrep.
  destruct (carry_draw F nf t r l 0 (consts e) g' Hlv ltac:(lia)) as (g4 & tl & tr & D4 & E4 & Hok & Hml & Hmr); [lia|].
  destruct (usize_range_draw 0 (S (List.length (l ++ r))) (0 + List.length l) g4) as (g3 & D3 & E3); [rewrite app_length; lia|].
  destruct (sample_draw D reg D (S (List.length (l ++ r))) op g3 HlD) as (g1 & g2 & D1 & E1 & E2); [rewrite Nat.min_id; lia|auto|].
  rewrite Hrep in Hc.
  pose proof (insert_denotes F Hole t op tl tr l r (consts e) (flat_map leaf_values (l ++ r)) (var_names e) nf Hc Hok Hml Hmr) as Hden.
  destruct (compress_denotes F _ _ Hden) as (e' & b & Ec & Hd' & _ & _ & Hsz).
  { cbn [consts]. rewrite app_length. pose proof (leaf_values_all (l ++ r)). lia. }
  exists g1, e'. split. { eapply draws_trans0; [exact D1|]. eapply draws_trans0; eauto. }
  split; [|auto]. unfold prepend_random_op.
  assert (Hne' : exists n ns, nodes e = n :: ns).
  { rewrite Hrep. pose proof (tsize_pos t) as Hp. rewrite <- flatten_length in Hp. destruct (flatten t); [cbn in *; lia|eauto]. }
  destruct Hne' as (n & ns & En). rewrite En, <- En. rewrite (total_ok D reg D HlD), Nat.min_id. cbn [bind].
  destruct (Nat.eqb_spec (count_up_to reg D) 0) as [Ez|_]; [exfalso; revert Hr; eapply count_zero; eauto; lia|].
  rewrite E1. cbn [bind]. rewrite E2. cbn [bind snd]. rewrite E3. cbn [bind]. rewrite Hrep, E4. cbn [bind]. rewrite as_u8_small by lia.
  assert (Hlen : List.length (tl ++ t :: tr) = S (List.length (l ++ r))).
  { rewrite <- Hml, <- Hmr, !app_length. cbn [List.length]. rewrite !map_length. lia. }
  cbn [before after app flatten] in Ec. rewrite app_nil_r, Hlen in Ec. rewrite Ec. reflexivity.
Qed.

Lemma grow_denotes {T} (F : FloatOps T) C' s op ts ys cs ex names nf :
  ids_below (List.length cs) (flatten (tplug C' s)) -> Forall (leaf_ok nf (List.length (cs ++ ex))) ts ->
  map (lit (const_at F (cs ++ ex))) ts = ys ->
  denotes F (mkExpr (before C' ++ flatten (TOp op ts) ++ after C') (cs ++ ex) names)
    (xplug (map_ctx (lit (const_at F cs)) C') (XOp op ys)).
Proof.
  intros Hc Hlv <-. change (XOp op (map (lit (const_at F (cs ++ ex))) ts)) with (lit (const_at F (cs ++ ex)) (TOp op ts)).
  apply (denotes_intro F C' s); auto. cbn [flatten]. rewrite !ids_below_app. split.
  - intros i Hi. apply in_flat_map in Hi as (t & Ht & Hi). rewrite Forall_forall in Hlv. eapply leaf_ok_ids; [apply Hlv; eauto|auto].
  - intros j [Hj|[]]. discriminate.
Qed.

Theorem C70_append : forall (T : Type) (F : FloatOps T) D nf known reg (e : expr T) C (s : xtree T) op cs,
  denotes F e (xplug C s) -> setting D nf known reg -> List.length (consts e) + D <= u16_max ->
  xleaf s -> cs <> [] -> Forall (leaf_fits nf) cs -> registered reg (List.length cs) op ->
  can_small F (flat_map leaf_values cs) (fun g => append_random_op D reg nf g e) (xplug C (XOp op cs)).
Proof.
  intros T F D nf known reg e C s op cs Hd (Hreg & Hnf & HD) Hcap Hleaf Hne Hlv Hr g'. pose proof (proj1 Hreg) as HlD.
  pose proof (registered_D _ _ _ _ HlD Hr) as Ha. assert (1 <= List.length cs) by (destruct cs; [congruence|cbn; lia]).
  destruct (find_place F e _ _ Hd) as (C' & ts & i & Hrep & Hc & <- & <- & Hl & Hs & Hi). unfold represents in Hrep.
  apply xleaf_lit in Hleaf. rewrite (tleaf_size ts Hleaf) in Hl.
  destruct (leaves_draw F nf cs (consts e) Hlv ltac:(lia)) as (tc & Hok & Hm & Hdraw); [lia|]. destruct (Hdraw g') as (g3 & D3 & E3).
  destruct (sample_draw D reg D (List.length cs) op g3 HlD) as (g1 & g2 & D1 & E1 & E2); [rewrite Nat.min_id; lia|auto|].
  assert (Hp : In i (positions is_leaf_node (nodes e))).
  { apply positions_in. rewrite Hrep. eexists. split; [exact (subtree_at_root _ _ _ Hs)|]. destruct ts; [reflexivity|reflexivity|destruct Hleaf]. }
  destruct (pick_draw _ _ g1 Hp) as (g & D0 & E0).
  pose proof (grow_denotes F C' ts op tc cs (consts e) (flat_map leaf_values cs) (var_names e) nf Hc Hok Hm) as Hden.
  destruct (compress_denotes F _ _ Hden) as (e' & b & Ec & Hd' & _ & _ & Hsz).
  { cbn [consts]. rewrite app_length. pose proof (leaf_values_all cs). lia. }
  exists g, e'. split. { eapply draws_trans0; [exact D0|]. eapply draws_trans0; eauto. }
  split; [|auto]. unfold append_random_op.
  assert (Hne' : exists n ns, nodes e = n :: ns) by (rewrite Hrep in *; destruct (flatten (tplug C' ts)); [cbn in *; lia|eauto]).
  destruct Hne' as (n & ns & En). rewrite En, <- En. rewrite (total_ok D reg D HlD), Nat.min_id. cbn [bind].
  destruct (Nat.eqb_spec (count_up_to reg D) 0) as [Ez|_]; [exfalso; revert Hr; eapply count_zero; eauto; lia|].
  destruct (positions is_leaf_node (nodes e)) as [|p ps] eqn:Ep; [destruct Hp|].
  rewrite E0. cbn [bind]. rewrite E1. cbn [bind]. rewrite E2. cbn [bind snd]. rewrite E3. cbn [bind]. rewrite as_u8_small by lia.
  assert (Hlen : List.length tc = List.length cs) by (rewrite <- Hm, map_length; reflexivity).
  assert (S2 : splice (nodes e) i i (flat_map flatten tc ++ [Op (List.length cs) op]) = Ok (before C' ++ flatten (TOp op tc) ++ after C')).
  { rewrite Hrep, flatten_tplug. rewrite splice_mid; [|lia|rewrite flatten_length, (tleaf_size ts Hleaf); lia]. cbn [flatten]. now rewrite Hlen. }
  rewrite S2. cbn [bind]. rewrite Ec. reflexivity.
Qed.

Theorem C70_add : forall (T : Type) (F : FloatOps T) D nf known reg (e : expr T) (x : xtree T),
  denotes F e x -> setting D nf known reg -> List.length (consts e) + D <= u16_max ->
  (forall C s op cs, x = xplug C s -> xleaf s -> cs <> [] -> Forall (leaf_fits nf) cs -> registered reg (List.length cs) op ->
     can_small F (flat_map leaf_values cs) (fun g => add_node D reg nf g e) (xplug C (XOp op cs)))
  /\ (forall op l r, Forall (leaf_fits nf) (l ++ r) -> registered reg (S (List.length (l ++ r))) op ->
     can_small F (flat_map leaf_values (l ++ r)) (fun g => add_node D reg nf g e) (XOp op (l ++ x :: r))).
Proof.
  intros T F D nf known reg e x Hd Hset Hcap. split.
  - intros C s op cs -> Hleaf Hne Hlv Hr g'.
    destruct (C70_append T F D nf known reg e C s op cs Hd Hset Hcap Hleaf Hne Hlv Hr g') as (g1 & e' & D1 & E1 & H).
    destruct (rng_bool_draw true g1) as (g & D0 & E0). exists g, e'. split; [eapply draws_trans0; eauto|]. split; auto. unfold add_node. now rewrite E0.
  - intros op l r Hlv Hr g'. destruct (C70_prepend T F D nf known reg e x op l r Hd Hset Hcap Hlv Hr g') as (g1 & e' & D1 & E1 & H).
    destruct (rng_bool_draw false g1) as (g & D0 & E0). exists g, e'. split; [eapply draws_trans0; eauto|]. split; auto. unfold add_node. now rewrite E0.
Qed.

Theorem C70_delete : forall (T : Type) (F : FloatOps T) (e : expr T) C op l (s : xtree T) r,
  denotes F e (xplug C (XOp op (l ++ s :: r))) -> List.length (consts e) <= u16_max ->
  can_small F [] (fun g => delete_random_op g e) (xplug C s).
Proof.
  intros T F e C op l s r Hd Hcap g'.
  destruct (find_place F e _ _ Hd) as (C' & t0 & i & Hr & Hc & <- & Es & Hl & Hs & Hi). unfold represents in Hr.
  destruct t0 as [|?|op0 ts]; try discriminate. cbn in Es. injection Es as -> Es.
  apply map_app_inv in Es as (tl & c & tr & -> & El & <- & Er).
  pose proof (tsize_pos c).
  destruct (usize_range_draw 0 (List.length (tl ++ c :: tr)) (List.length tl) g') as (g1 & D1 & E1); [rewrite app_length; cbn; lia|].
  assert (Hp : In i (positions is_op (nodes e))).
  { apply positions_in. rewrite Hr. eexists. split; [exact (subtree_at_root _ _ _ Hs)|reflexivity]. }
  destruct (pick_draw _ _ g1 Hp) as (g & D0 & E0).
  assert (Hden : denotes F (mkExpr (before C' ++ flatten c ++ after C') (consts e) (var_names e)) (xplug (map_ctx (lit (const_at F (consts e))) C') (lit (const_at F (consts e)) c))).
  { apply (denotes_intro0 F C' (TOp op (tl ++ c :: tr))); auto.
    rewrite flatten_tplug in Hc. cbn [flatten] in Hc. rewrite flat_map_app' in Hc. cbn [flat_map] in Hc. rewrite !ids_below_app in Hc. tauto. }
  destruct (compress_denotes F _ _ Hden Hcap) as (e' & b & Ec & Hd' & _ & _ & Hsz).
  exists g, e'. split; [eapply draws_trans0; eauto|]. split; [|auto].
  unfold delete_random_op. destruct (positions is_op (nodes e)) as [|p ps] eqn:Ep; [destruct Hp|]. rewrite E0. cbn [bind]. rewrite Hr.
  unfold index at 1. rewrite (subtree_at_root _ _ _ Hs). cbn [expect bind root_node].
  destruct (Nat.eqb_spec (List.length (tl ++ c :: tr)) 0) as [E|_]; [rewrite app_length in E; cbn in E; lia|]. rewrite subtree_sizes_flatten. cbn [bind].
  unfold subtree_range, index at 1. rewrite (proj1 (subtree_at_spec _ _ _ Hs)). cbn [expect bind].
  destruct (Nat.leb_spec (tsize (TOp op (tl ++ c :: tr))) (i + 1)); [|lia]. cbn [bind].
  assert (Est : i + 1 - tsize (TOp op (tl ++ c :: tr)) = List.length (before C')) by lia.
  assert (Hsz2 : 2 <= tsize (TOp op (tl ++ c :: tr))).
  { cbn [tsize]. rewrite map_app, sum_list_app. cbn. lia. }
  destruct (Nat.eqb_spec (i + 1 - tsize (TOp op (tl ++ c :: tr))) i); [lia|].
  rewrite (child_ranges_flatten _ _ _ _ Hs). cbn [bind]. rewrite Est, E1. cbn [bind].
  assert (Ek : nth_error (tl ++ c :: tr) (List.length tl) = Some c) by (rewrite nth_error_app2, Nat.sub_diag by lia; reflexivity).
  unfold index. rewrite (spans_nth _ _ _ _ Ek). cbn [expect bind fst snd].
  assert (Hfst : firstn (List.length tl) (tl ++ c :: tr) = tl) by (rewrite firstn_app, Nat.sub_diag, firstn_all; cbn; apply app_nil_r).
  rewrite Hfst.
  assert (S1 : slice_incl (flatten (tplug C' (TOp op (tl ++ c :: tr)))) (List.length (before C') + sum_list (map tsize tl)) (List.length (before C') + sum_list (map tsize tl) + tsize c - 1) = Ok (flatten c)).
  { rewrite flatten_tplug. cbn [flatten]. rewrite flat_map_app'. cbn [flat_map]. rewrite <- !app_assoc. rewrite (app_assoc (before C')).
    apply slice_incl_mid; rewrite ?app_length, ?flatten_length, ?flat_map_flatten_length; lia. }
  rewrite S1. cbn [bind].
  assert (S2 : splice (flatten (tplug C' (TOp op (tl ++ c :: tr)))) (List.length (before C')) i (flatten c) = Ok (before C' ++ flatten c ++ after C')).
  { rewrite flatten_tplug. apply splice_mid; auto. rewrite flatten_length. exact Hl. }
  rewrite S2. cbn [bind]. unfold with_nodes. rewrite Ec. reflexivity.
Qed.

Theorem C70_crossover : forall (T : Type) (F : FloatOps T) (a b : expr T) Ca (sa : xtree T) Cb sb (g' : rng T),
  denotes F a (xplug Ca sa) -> denotes F b (xplug Cb sb) -> List.length (consts a) + List.length (consts b) <= u16_max ->
  exists g a' b', draws [] g g' /\ crossover_trees g a b = Ok (a', b', g') /\ denotes F a' (xplug Ca sb) /\ denotes F b' (xplug Cb sa).
Proof.
  intros T F a b Ca sa Cb sb g' Ha Hb Hcap.
  destruct (find_place F a _ _ Ha) as (Ca' & ta & i & Ra & Ia & <- & <- & La & Hsa & Hi).
  destruct (find_place F b _ _ Hb) as (Cb' & tb & j & Rb & Ib & <- & <- & Lb & Hsb & Hj). unfold represents in *.
  destruct (usize_range_draw 0 (List.length (nodes b)) j g') as (g1 & D1 & E1); [rewrite Rb; lia|].
  destruct (usize_range_draw 0 (List.length (nodes a)) i g1) as (g & D0 & E0); [rewrite Ra; lia|].
  pose proof (flatten_tplug Ca' ta) as Fa. pose proof (flatten_tplug Cb' tb) as Fb.
  pose proof (flatten_length ta) as FLa. pose proof (flatten_length tb) as FLb.
  pose proof Ia as Ia'. pose proof Ib as Ib'. rewrite Fa, !ids_below_app in Ia'. rewrite Fb, !ids_below_app in Ib'.
  destruct (remap_ok F (consts b) (consts a) tb) as (exa & sb' & R1 & I1 & T1 & L1 & X1); [tauto|lia|].
  destruct (remap_ok F (consts a) (consts b) ta) as (exb & sa' & R2 & I2 & T2 & L2 & X2); [tauto|lia|].
  set (ca := const_at F (consts a)) in *. set (cb := const_at F (consts b)) in *.
  assert (DA : denotes F (mkExpr (before Ca' ++ flatten sb' ++ after Ca') (consts a ++ exa) (var_names a)) (xplug (map_ctx (lit ca) Ca') (lit cb tb))).
  { rewrite <- L1. apply (denotes_intro F Ca' ta); auto. }
  assert (DB : denotes F (mkExpr (before Cb' ++ flatten sa' ++ after Cb') (consts b ++ exb) (var_names b)) (xplug (map_ctx (lit cb) Cb') (lit ca ta))).
  { rewrite <- L2. apply (denotes_intro F Cb' tb); auto. }
  destruct (compress_denotes F _ _ DA) as (a' & ba & EA & DA' & _); [cbn [consts]; rewrite app_length; lia|].
  destruct (compress_denotes F _ _ DB) as (b' & bb & EB & DB' & _); [cbn [consts]; rewrite app_length; lia|].
  exists g, a', b'. split; [eapply draws_trans0; eauto|]. split; [|auto].
  unfold crossover_trees. rewrite E0, Ra, Rb, !subtree_sizes_flatten. cbn [bind]. rewrite <- Rb, E1, Rb. cbn [bind].
  unfold subtree_range, index. rewrite (proj1 (subtree_at_spec _ _ _ Hsa)). cbn [expect bind].
  destruct (Nat.leb_spec (tsize ta) (i + 1)); [|lia]. cbn [bind].
  rewrite (proj1 (subtree_at_spec _ _ _ Hsb)). cbn [expect bind]. destruct (Nat.leb_spec (tsize tb) (j + 1)); [|lia]. cbn [bind].
  replace (i + 1 - tsize ta) with (List.length (before Ca')) by lia. replace (j + 1 - tsize tb) with (List.length (before Cb')) by lia.
  assert (S1 : slice_incl (flatten (tplug Ca' ta)) (List.length (before Ca')) i = Ok (flatten ta)) by (rewrite Fa; apply slice_incl_mid; auto; lia).
  assert (S2 : slice_incl (flatten (tplug Cb' tb)) (List.length (before Cb')) j = Ok (flatten tb)) by (rewrite Fb; apply slice_incl_mid; auto; lia).
  rewrite S1, S2. cbn [bind]. rewrite R1. cbn [bind].
  assert (P1 : forall (pre m post : list pnode), slice (pre ++ m ++ post) 0 (List.length pre) = Ok pre).
  { intros pre m post. unfold slice. rewrite app_length. cbn [Nat.add]. destruct (Nat.leb_spec (List.length pre) (List.length pre + List.length (m ++ post))); [|lia].
    cbn [skipn]. replace (List.length pre) with (List.length pre + 0) by lia. rewrite firstn_app_2. cbn. now rewrite app_nil_r. }
  assert (P2 : forall (pre m post : list pnode) k, List.length pre + List.length m = k + 1 -> skipn (k + 1) (pre ++ m ++ post) = post).
  { intros pre m post k Hk. rewrite app_assoc, skipn_app, skipn_all2 by (rewrite app_length; lia). rewrite app_length. now replace (k + 1 - (List.length pre + List.length m)) with 0 by lia. }
  rewrite Fa, P1, (P2 (before Ca')) by lia. cbn [bind]. rewrite R2. cbn [bind].
  rewrite Fb, P1, (P2 (before Cb')) by lia. cbn [bind]. rewrite EA. cbn [bind]. rewrite EB. reflexivity.
Qed.

(** Every rotation: any operator with an operator below it, any grandchild of it there. *)
Theorem C70_rotate : forall (T : Type) (F : FloatOps T) (e : expr T) C r p l1 r1 l2 (c : xtree T) r2,
  denotes F e (xplug C (XOp r (l1 ++ XOp p (l2 ++ c :: r2) :: r1))) ->
  can F [] (fun g => rotate_tree g e) (xplug C (XOp p (l2 ++ XOp r (l1 ++ c :: r1) :: r2))).
Proof.
  intros T F e C op p xl1 xr1 xl2 c0 xr2 Hd g'.
  destruct (find_place F e _ _ Hd) as (C' & s & i & Hr & Hc & <- & Es & Hl & Hs & Hi). unfold represents in Hr.
  destruct s as [|?|op0 ss]; try discriminate. cbn in Es. injection Es as -> Es.
  apply map_app_inv in Es as (l1 & pt & r1 & -> & <- & Ep & <-). destruct pt as [|?|p0 ps]; try discriminate. cbn in Ep. injection Ep as -> Ep.
  apply map_app_inv in Ep as (l2 & gc & r2 & -> & <- & <- & <-).
  set (S0 := TOp op (l1 ++ TOp p (l2 ++ gc :: r2) :: r1)) in *. set (t := tplug C' S0) in *.
  destruct (valid_roots_ok t (seq 0 (List.length (flatten t))) []) as (rs & Ers & Hrs).
  { intros k Hk. apply in_seq in Hk. rewrite flatten_length in Hk. lia. }
  assert (Hin : In i rs).
  { apply Hrs. split; [apply in_seq; lia|]. exists op, l1, p, (l2 ++ gc :: r2), r1. exact Hs. }
  remember (l1 ++ TOp p (l2 ++ gc :: r2) :: r1) as cs eqn:Ecs.
  assert (Hpp : In (List.length l1) (true_positions (map is_top cs))).
  { apply true_positions_in. rewrite Ecs, map_app, nth_error_app2; rewrite map_length; [|lia]. now rewrite Nat.sub_diag. }
  destruct (usize_range_draw 0 (List.length (l2 ++ gc :: r2)) (List.length l2) g') as (g2 & D2 & E2); [rewrite app_length; cbn; lia|].
  destruct (pick_draw _ _ g2 Hpp) as (g1 & D1 & E1). destruct (pick_draw _ _ g1 Hin) as (g & D0 & E0).
  assert (Hsz : 1 <= List.length cs) by (rewrite Ecs, app_length; cbn; lia).
  exists g. eexists. split; [eapply draws_trans0; [exact D0|]; eapply draws_trans0; eauto|]. split.
  { unfold rotate_tree. rewrite Hr. fold S0. fold t. rewrite subtree_sizes_flatten. cbn [bind]. rewrite Ers. cbn [bind app].
    destruct rs as [|i0 rs0] eqn:Ern; [destruct Hin|]. rewrite <- Ern in *. rewrite E0. cbn [bind].
    unfold index at 1. rewrite (subtree_at_root _ _ _ Hs). unfold S0 at 1. cbn [expect bind root_node].
    destruct (Nat.eqb_spec (List.length cs) 0) as [Ez|_]; [lia|].
    rewrite (child_ranges_flatten _ _ _ _ Hs). cbn [bind]. rewrite (op_children_at _ _ _ _ Hs). cbn [bind].
    destruct (true_positions (map is_top cs)) as [|j0 js] eqn:Etp; [destruct Hpp|]. rewrite <- Etp in *. rewrite E1. cbn [bind].
    assert (Ecn : nth_error cs (List.length l1) = Some (TOp p (l2 ++ gc :: r2))) by (rewrite Ecs, nth_error_app2, Nat.sub_diag by lia; reflexivity).
    unfold index at 1. rewrite (spans_nth _ _ _ _ Ecn). cbn [expect bind snd].
    assert (Hfst : firstn (List.length l1) cs = l1) by (rewrite Ecs, firstn_app, Nat.sub_diag, firstn_all; cbn; apply app_nil_r).
    rewrite Hfst. subst cs.
    pose proof (subtree_at_child _ _ _ _ _ _ Hs) as Hp.
    set (pi := i + 1 - tsize (TOp op (l1 ++ TOp p (l2 ++ gc :: r2) :: r1)) + sum_list (map tsize l1) + tsize (TOp p (l2 ++ gc :: r2)) - 1) in *.
    unfold index at 1. rewrite (subtree_at_root _ _ _ Hp). cbn [expect bind root_node].
    destruct (Nat.eqb_spec (List.length (l2 ++ gc :: r2)) 0) as [Ez|_]; [rewrite app_length in Ez; cbn in Ez; lia|].
    rewrite (child_ranges_flatten _ _ _ _ Hp). cbn [bind]. rewrite E2. cbn [bind].
    assert (Egn : nth_error (l2 ++ gc :: r2) (List.length l2) = Some gc) by (rewrite nth_error_app2, Nat.sub_diag by lia; reflexivity).
    unfold index at 1. rewrite (spans_nth _ _ _ _ Egn). cbn [expect bind fst snd].
    assert (Hfst2 : firstn (List.length l2) (l2 ++ gc :: r2) = l2) by (rewrite firstn_app, Nat.sub_diag, firstn_all; cbn; apply app_nil_r).
    rewrite Hfst2.
    unfold subtree_range, index at 1. rewrite (proj1 (subtree_at_spec _ _ _ Hs)). cbn [expect bind]. fold S0.
    destruct (Nat.leb_spec (tsize S0) (i + 1)); [|lia]. cbn [bind].
    assert (Est : i + 1 - tsize S0 = List.length (before C')) by lia. rewrite Est in *.
    assert (Ef : flatten t = before C' ++ flatten S0 ++ after C') by (apply flatten_tplug).
    assert (ES : flatten S0 = flat_map flatten l1 ++ (flat_map flatten l2 ++ flatten gc ++ flat_map flatten r2
        ++ [Op (List.length (l2 ++ gc :: r2)) p]) ++ flat_map flatten r1 ++ [Op (List.length (l1 ++ TOp p (l2 ++ gc :: r2) :: r1)) op]).
    { unfold S0. cbn [flatten]. rewrite flat_map_app'. cbn [flat_map flatten]. rewrite flat_map_app'. cbn [flat_map]. rewrite <- !app_assoc. reflexivity. }
    pose proof (flat_map_flatten_length l1) as L1. pose proof (flat_map_flatten_length l2) as L2. pose proof (flatten_length gc) as Lg. pose proof (tsize_pos gc).
    assert (Hpi : pi + 1 = List.length (before C') + sum_list (map tsize l1) + tsize (TOp p (l2 ++ gc :: r2))).
    { unfold pi. pose proof (tsize_pos (TOp p (l2 ++ gc :: r2))). fold S0. lia. }
    rewrite Hpi.
    replace (List.length (before C') + sum_list (map tsize l1) + tsize (TOp p (l2 ++ gc :: r2)) - tsize (TOp p (l2 ++ gc :: r2)))
      with (List.length (before C') + sum_list (map tsize l1)) by lia.
    assert (S1 : slice_incl (flatten t) (List.length (before C') + sum_list (map tsize l1) + sum_list (map tsize l2))
        (List.length (before C') + sum_list (map tsize l1) + sum_list (map tsize l2) + tsize gc - 1) = Ok (flatten gc)).
    { rewrite Ef, ES.
      replace (before C' ++ (flat_map flatten l1 ++ (flat_map flatten l2 ++ flatten gc ++ flat_map flatten r2
        ++ [Op (List.length (l2 ++ gc :: r2)) p]) ++ flat_map flatten r1 ++ [Op (List.length (l1 ++ TOp p (l2 ++ gc :: r2) :: r1)) op]) ++ after C')
      with ((before C' ++ flat_map flatten l1 ++ flat_map flatten l2) ++ flatten gc ++ (flat_map flatten r2
        ++ [Op (List.length (l2 ++ gc :: r2)) p]) ++ flat_map flatten r1 ++ [Op (List.length (l1 ++ TOp p (l2 ++ gc :: r2) :: r1)) op] ++ after C')
        by (rewrite <- !app_assoc; reflexivity).
      apply slice_incl_mid; rewrite ?app_length; lia. }
    rewrite S1. cbn [bind].
    assert (S2 : concat_children (flatten t) (spans (List.length (before C')) (l1 ++ TOp p (l2 ++ gc :: r2) :: r1)) 0 (List.length l1) (flatten gc)
       = Ok (flat_map flatten l1 ++ flatten gc ++ flat_map flatten r1)).
    { apply (concat_children_split (flatten t) (flatten gc) l1 (TOp p (l2 ++ gc :: r2)) r1 (before C') 0 (List.length l1)
               ([Op (List.length (l1 ++ TOp p (l2 ++ gc :: r2) :: r1)) op] ++ after C')); [|reflexivity|cbn; lia].
      rewrite Ef. unfold S0. cbn [flatten]. rewrite <- !app_assoc. reflexivity. }
    rewrite S2. cbn [bind].
    set (rotated := TOp op (l1 ++ gc :: r1)).
    assert (Erot : (flat_map flatten l1 ++ flatten gc ++ flat_map flatten r1) ++ [Op (List.length (l1 ++ TOp p (l2 ++ gc :: r2) :: r1)) op] = flatten rotated).
    { unfold rotated. cbn [flatten]. rewrite flat_map_app'. cbn [flat_map]. rewrite !app_length. reflexivity. }
    rewrite Erot.
    assert (S3 : concat_children (flatten t) (spans (List.length (before C') + sum_list (map tsize l1)) (l2 ++ gc :: r2)) 0 (List.length l2) (flatten rotated)
       = Ok (flat_map flatten l2 ++ flatten rotated ++ flat_map flatten r2)).
    { apply (concat_children_split (flatten t) (flatten rotated) l2 gc r2 (before C' ++ flat_map flatten l1) 0 (List.length l2)
               ([Op (List.length (l2 ++ gc :: r2)) p] ++ flat_map flatten r1 ++ [Op (List.length (l1 ++ TOp p (l2 ++ gc :: r2) :: r1)) op] ++ after C')); [|rewrite app_length; lia|cbn; lia].
      rewrite Ef, ES. rewrite flat_map_app'. cbn [flat_map]. rewrite <- !app_assoc. reflexivity. }
    rewrite S3. cbn [bind].
    assert (ES' : (flat_map flatten l2 ++ flatten rotated ++ flat_map flatten r2) ++ [Op (List.length (l2 ++ gc :: r2)) p] = flatten (TOp p (l2 ++ rotated :: r2))).
    { cbn [flatten]. rewrite flat_map_app'. cbn [flat_map]. rewrite !app_length. reflexivity. }
    rewrite ES'.
    assert (S4 : splice (flatten t) (List.length (before C')) i (flatten (TOp p (l2 ++ rotated :: r2))) = Ok (before C' ++ flatten (TOp p (l2 ++ rotated :: r2)) ++ after C')).
    { rewrite Ef. apply splice_mid; auto. rewrite flatten_length. exact Hl. }
    rewrite S4. cbn [bind]. reflexivity. }
  subst cs. unfold with_nodes. cbn [nodes consts var_names]. set (cst := const_at F (consts e)).
  replace (XOp p (map (lit cst) l2 ++ XOp op (map (lit cst) l1 ++ lit cst gc :: map (lit cst) r1) :: map (lit cst) r2))
    with (lit cst (TOp p (l2 ++ TOp op (l1 ++ gc :: r1) :: r2))) by (cbn [lit]; rewrite map_app; cbn [map lit]; rewrite map_app; reflexivity).
  apply (denotes_intro0 F C' S0); [exact Hc|].
  assert (Hnop : forall n a o, ids_below n [Op a o]) by (intros n a o j [Hj|[]]; discriminate).
  unfold t, S0 in Hc. rewrite flatten_tplug in Hc. cbn [flatten] in *. rewrite flat_map_app' in *. cbn [flat_map flatten] in *. rewrite flat_map_app' in *. cbn [flat_map] in *.
  rewrite !ids_below_app in *. repeat split; try apply Hnop; tauto.
Qed.

(** ** Random formulas *)
(** Steps of growth: a leaf becomes a registered operator over leaves; [vs] are the constants drawn, [n] the number of steps. *)
Inductive growth {T} (reg : registry) (nf : nat) : list T -> nat -> xtree T -> xtree T -> Prop :=
| growth_nil x : growth reg nf [] 0 x x
| growth_step C s op cs vs n y : xleaf s -> cs <> [] -> Forall (leaf_fits nf) cs -> registered reg (List.length cs) op ->
    growth reg nf vs n (xplug C (XOp op cs)) y -> growth reg nf (flat_map leaf_values cs ++ vs) (S n) (xplug C s) y.

Lemma growth_snoc {T} reg nf vs n (x : xtree T) C s op cs y0 : growth reg nf vs n x y0 -> y0 = xplug C s -> xleaf s -> cs <> [] ->
  Forall (leaf_fits nf) cs -> registered reg (List.length cs) op ->
  growth reg nf (vs ++ flat_map leaf_values cs) (S n) x (xplug C (XOp op cs)).
Proof.
  intros H. induction H as [x|C0 s0 op0 cs0 vs n y H1 H2 H3 H4 H5 IH]; intros E Hs Hne Hf Hr.
  - subst x. cbn [app]. rewrite <- (app_nil_r (flat_map leaf_values cs)). econstructor; eauto. constructor.
  - rewrite <- app_assoc. econstructor; eauto.
Qed.

Lemma leaves_size {T} nf (cs : list (xtree T)) : Forall (leaf_fits nf) cs -> sum_list (map xsize cs) = List.length cs.
Proof. induction 1 as [|y ys Hy _ IH]; cbn; auto. destruct y; cbn in *; [lia|lia|contradiction]. Qed.

Lemma xleaf_size {T} (s : xtree T) : xleaf s -> xsize s = 1.
Proof. destruct s; cbn; tauto. Qed.

Lemma grow_size {T} nf C (s : xtree T) op cs : xleaf s -> Forall (leaf_fits nf) cs -> xsize (xplug C (XOp op cs)) = xsize (xplug C s) + List.length cs.
Proof.
  intros Hs Hf. pose proof (xsize_plug C s (XOp op cs)) as H. rewrite (xleaf_size s Hs) in H. cbn [xsize] in H. rewrite (leaves_size nf cs Hf) in H. lia.
Qed.

Lemma growth_size {T} reg nf vs n (x y : xtree T) : growth reg nf vs n x y -> xsize x + n <= xsize y.
Proof.
  induction 1 as [|C s op cs vs n y H1 H2 H3 H4 H5 IH]; [lia|]. rewrite (grow_size nf C s op cs H1 H3) in IH.
  destruct cs; [congruence|]. cbn in IH. lia.
Qed.

(** The constants of a formula and the number of its operators. *)
Fixpoint xconsts {T} (x : xtree T) : list T :=
  match x with XVar _ => [] | XConst v => [v] | XOp _ cs => flat_map xconsts cs end.
Fixpoint xops {T} (x : xtree T) : nat :=
  match x with XVar _ | XConst _ => 0 | XOp _ cs => 1 + sum_list (map xops cs) end.

Lemma leaves_consts {T} nf (cs : list (xtree T)) : Forall (leaf_fits nf) cs -> flat_map xconsts cs = flat_map leaf_values cs /\ sum_list (map xops cs) = 0.
Proof. induction 1 as [|y ys Hy _ [IH1 IH2]]; cbn; auto. rewrite IH1, IH2. destruct y; cbn in *; auto; contradiction. Qed.

(** A lowest operator: all its arguments are leaves. *)
Lemma lowest_op {T} D nf known (x : xtree T) : x_ok D nf known x -> ~ xleaf x ->
  exists C op cs, x = xplug C (XOp op cs) /\ cs <> [] /\ Forall (leaf_fits nf) cs /\ known (List.length cs) op = true.
Proof.
  induction x as [f|v|op cs IH] using xtree_ind'; intros Hx Hl; [cbn in Hl; tauto|cbn in Hl; tauto|].
  cbn [x_ok] in Hx. destruct Hx as (Hlen & Hk & Hcs). rewrite fold_right_and_Forall in Hcs.
  assert (Hdec : Forall (leaf_fits nf) cs \/ exists l c r, cs = l ++ c :: r /\ ~ xleaf c /\ x_ok D nf known c).
  { clear -Hcs. induction Hcs as [|c cs Hc _ [IH|(l & c' & r & -> & H1 & H2)]]; [left; constructor| |].
    - destruct c as [f|v|op' cs'] eqn:Ec; [left; constructor; auto; exact Hc|left; constructor; auto; exact I|].
      right. exists [], (XOp op' cs'), cs. repeat split; auto; try (cbn; tauto); cbn [x_ok] in Hc; tauto.
    - right. exists (c :: l), c', r. auto. }
  destruct Hdec as [Hall|(l & c & r & -> & Hnl & Hc)].
  - exists Hole, op, cs. split; [reflexivity|]. split; [destruct cs; [cbn in Hlen; lia|discriminate]|auto].
  - rewrite Forall_app in IH. destruct IH as [_ IH]. inversion IH as [|? ? IHc _]; subst.
    destruct (IHc Hc Hnl) as (C & op' & cs' & -> & H1 & H2 & H3). exists (CNode op l C r), op', cs'. auto.
Qed.

Lemma plug_consts {T} C (s : xtree T) : xconsts s = [] -> forall y, Permutation (xconsts (xplug C y)) (xconsts (xplug C s) ++ xconsts y).
Proof.
  intros Hs y. induction C as [|op l C IH r]; cbn [plug xconsts]; [now rewrite Hs|].
  rewrite !flat_map_app'. cbn [flat_map]. rewrite <- !app_assoc. apply Permutation_app_head.
  rewrite IH. rewrite <- !app_assoc. apply Permutation_app_head. apply Permutation_app_comm.
Qed.

Lemma plug_ops {T} C (s : xtree T) : xops s = 0 -> forall y, xops (xplug C y) = xops (xplug C s) + xops y.
Proof.
  intros Hs y. induction C as [|op l C IH r]; cbn [plug xops]; [lia|]. rewrite !map_app, !sum_list_app. cbn [map sum_list fold_right]. rewrite IH. lia.
Qed.

(** Any formula over the registered operators grows from any leaf, drawing just its own constants. *)
Lemma growth_to {T} D nf reg (x : xtree T) : 1 <= nf -> x_ok D nf (reg_known reg) x -> ~ xleaf x -> forall s0, xleaf s0 ->
  exists vs, growth reg nf vs (xops x) s0 x /\ Permutation vs (xconsts x).
Proof.
  intros Hnf Hx Hl s0 Hs0. remember (xsize x) as n eqn:En. revert x En Hx Hl. induction n as [n IH] using lt_wf_ind. intros x -> Hx Hl.
  destruct (lowest_op _ _ _ _ Hx Hl) as (C & op & cs & -> & Hne & Hf & Hk). apply reg_known_spec in Hk.
  destruct (leaves_consts nf cs Hf) as [Hc1 Hc2].
  destruct C as [|op0 l C r].
  - cbn [plug]. exists (flat_map leaf_values cs ++ []). cbn [xops]. rewrite Hc2. split.
    + apply (growth_step reg nf Hole s0 op cs [] 0); auto. constructor.
    + rewrite app_nil_r. cbn [xconsts]. now rewrite Hc1.
  - set (C1 := CNode op0 l C r) in *.
    destruct (IH (xsize (xplug C1 (XVar 0)))) with (x := xplug C1 (@XVar T 0)) as (vs & Hg & Hp).
    + rewrite (grow_size nf C1 (XVar 0) op cs I Hf). destruct cs; [congruence|]. cbn [List.length]. lia.
    + reflexivity.
    + apply x_ok_plug in Hx as [_ Hx]. apply Hx. cbn. lia.
    + cbn. tauto.
    + exists (vs ++ flat_map leaf_values cs). split.
      * rewrite (plug_ops C1 (XVar 0) eq_refl). cbn [xops]. rewrite Hc2, Nat.add_1_r. eapply growth_snoc; eauto. exact I.
      * rewrite (plug_consts C1 (XVar 0) eq_refl). cbn [xconsts]. rewrite Hc1, Hp. reflexivity.
Qed.

Lemma random_expr_loop_draw {T} (F : FloatOps T) D nf known reg target : setting D nf known reg -> target <= u16_max ->
  forall vs n (x y : xtree T), growth reg nf vs n x y -> forall fuel e, denotes F e x -> List.length (consts e) <= xsize x ->
  xsize y = target -> target < fuel + xsize x ->
  exists e', denotes F e' y /\ List.length (consts e') <= xsize y
    /\ forall g' : rng T, exists g, draws vs g g' /\ random_expr_loop fuel D reg nf target g (nodes e) (consts e) = Ok (nodes e', consts e', g').
Proof.
  intros (Hreg & Hnf & HD) Ht vs n x y Hg. induction Hg as [x|C s op cs vs n y Hleaf Hne Hf Hr Hg IH]; intros fuel e Hd Hcs Hy Hfuel.
  - exists e. split; auto. split; auto. intros g'. exists g'. split; [constructor|]. destruct fuel as [|fuel]; [lia|]. cbn [random_expr_loop].
    rewrite (denotes_size _ _ _ Hd). destruct (Nat.ltb_spec (xsize x) target); [lia|reflexivity].
  - pose proof (growth_size _ _ _ _ _ _ Hg) as Hgs. rewrite (grow_size nf C s op cs Hleaf Hf) in Hgs.
    assert (Hlc : 1 <= List.length cs) by (destruct cs; [congruence|cbn; lia]).
    destruct fuel as [|fuel]; [lia|].
    pose proof (proj1 Hreg) as HlD. pose proof (registered_D _ _ _ _ HlD Hr) as Ha. pose proof (denotes_size _ _ _ Hd) as Hlen.
    destruct (find_place F e _ _ Hd) as (C' & ts & i & Hrep & Hc & HC & Hts & Hl & Hs & Hi). unfold represents in Hrep.
    rewrite <- Hts in Hleaf. apply xleaf_lit in Hleaf. rewrite (tleaf_size ts Hleaf) in Hl.
    destruct (leaves_draw F nf cs (consts e) Hf ltac:(lia)) as (tc & Hok & Hm & Hdraw); [lia|].
    pose proof (leaf_values_all cs) as Hlv.
    pose proof (grow_denotes F C' ts op tc cs (consts e) (flat_map leaf_values cs) (var_names e) nf Hc Hok Hm) as Hden. rewrite HC in Hden.
    destruct (IH fuel _ Hden) as (e' & Hd' & Hsz & Hdr).
    { cbn [consts]. rewrite app_length, (grow_size nf C s op cs); [lia| |auto]. rewrite <- Hts. now apply xleaf_lit. }
    { exact Hy. }
    { rewrite (grow_size nf C s op cs); [lia| |auto]. rewrite <- Hts. now apply xleaf_lit. }
    exists e'. split; auto. split; auto. intros g'. destruct (Hdr g') as (g4 & D4 & E4). destruct (Hdraw g4) as (g3 & D3 & E3).
    assert (Hp : In i (positions is_leaf_node (nodes e))).
    { apply positions_in. rewrite Hrep. eexists. split; [exact (subtree_at_root _ _ _ Hs)|]. destruct ts; [reflexivity|reflexivity|destruct Hleaf]. }
    destruct (pick_draw _ _ g3 Hp) as (g2 & D2 & E2).
    destruct (sample_draw D reg (Nat.min (target - xsize (xplug C s)) D) (List.length cs) op g2 HlD) as (g & g1 & D0 & E0 & E1); [lia|auto|].
    exists g. split. { eapply draws_trans0; [exact D0|]. eapply draws_trans0; [exact D2|]. eapply draws_trans; eauto. }
    cbn [random_expr_loop]. rewrite Hlen. destruct (Nat.ltb_spec (xsize (xplug C s)) target) as [Hlt|]; [|lia].
    rewrite total_ok by exact HlD. cbn [bind].
    match goal with |- context [0 <? count_up_to reg ?k] => destruct (Nat.ltb_spec 0 (count_up_to reg k)) as [_|Hz] end.
    2:{ exfalso. revert Hr. apply (count_zero reg (Nat.min (Nat.min D (target - xsize (xplug C s))) D)); lia. }
    rewrite E0. cbn [bind]. rewrite E1. cbn [bind snd]. rewrite E2. cbn [bind]. rewrite E3. cbn [bind]. rewrite as_u8_small by lia.
    assert (Hlt' : List.length tc = List.length cs) by (rewrite <- Hm, map_length; reflexivity).
    assert (S2 : splice (nodes e) i i (flat_map flatten tc ++ [Op (List.length cs) op]) = Ok (before C' ++ flatten (TOp op tc) ++ after C')).
    { rewrite Hrep, flatten_tplug. rewrite splice_mid; [|lia|rewrite flatten_length, (tleaf_size ts Hleaf); lia]. cbn [flatten]. now rewrite Hlt'. }
    rewrite S2. cbn [bind]. exact E4.
Qed.

(** Every formula of the requested size over the registered operators can be the random formula. *)
Theorem C70_random_expr : forall (T : Type) (F : FloatOps T) D nf known reg (x : xtree T),
  setting D nf known reg -> x_ok D nf (reg_known reg) x -> xsize x <= u16_max ->
  exists vs e, Permutation vs (xconsts x) /\ denotes F e x
    /\ forall g', exists g, draws vs g g' /\ random_expr D reg nf (xsize x) g = Ok (e, g').
Proof.
  intros T F D nf known reg x Hset Hx Hsz. pose proof Hset as (Hreg & Hnf & HD). pose proof (xsize_pos x) as Hp.
  assert (Hst : exists s0 vs, leaf_fits nf s0 /\ growth reg nf vs (xops x) s0 x /\ Permutation (leaf_values s0 ++ vs) (xconsts x)).
  { destruct x as [f|v|op cs].
    - exists (XVar f), []. split; [exact Hx|]. split; [constructor|reflexivity].
    - exists (XConst v), []. split; [exact I|]. split; [constructor|reflexivity].
    - destruct (growth_to D nf reg (XOp op cs) ltac:(lia) Hx ltac:(cbn; tauto) (XVar 0) I) as (vs & Hg & Hpm). exists (XVar 0), vs. cbn [leaf_fits leaf_values app]. split; [lia|auto]. }
  destruct Hst as (s0 & vs & Hs0 & Hg & Hpm).
  destruct (leaf_draw F nf (@nil T) s0 Hs0 ltac:(lia)) as (l & t & Hl & Hok & Hlit & Hdraw); [cbn; lia|]. cbn [app] in *.
  destruct (random_expr_loop_draw F D nf known reg (xsize x) Hset Hsz vs (xops x) s0 x Hg (S (xsize x)) (mkExpr [l] (leaf_values s0) [])) as (e' & Hd' & _ & Hdr).
  - exists t. split; [exact Hl|]. split; [|now symmetry]. cbn [nodes consts]. rewrite Hl. eapply leaf_ok_ids; eauto.
  - cbn [consts]. pose proof (leaf_values_len s0). pose proof (xsize_pos s0). lia.
  - reflexivity.
  - lia.
  - exists (leaf_values s0 ++ vs), (mkExpr (nodes e') (consts e') []). split; auto. split.
    + destruct Hd' as (t' & ? & ? & ?). exists t'. auto.
    + intros g'. destruct (Hdr g') as (g1 & D1 & E1). destruct (Hdraw g1) as (g & D0 & E0). exists g. split; [eapply draws_trans; eauto|].
      unfold random_expr. destruct (Nat.leb_spec 1 (xsize x)); [|lia]. cbn [assert_ bind]. rewrite E0. cbn [bind]. cbn [nodes consts] in E1. rewrite E1. reflexivity.
Qed.

Lemma append_ops_loop_draw {T} (F : FloatOps T) D nf known reg max_size : setting D nf known reg -> max_size <= u16_max ->
  forall vs n (x y : xtree T), growth reg nf vs n x y -> forall e (g' : rng T), denotes F e x -> List.length (consts e) <= xsize x ->
  xsize y <= max_size ->
  exists g e', draws vs g g' /\ append_ops_loop n D reg nf max_size g (nodes e) (consts e) = Ok (nodes e', consts e', g')
    /\ denotes F e' y /\ List.length (consts e') <= xsize y.
Proof.
  intros (Hreg & Hnf & HD) Ht vs n x y Hg. induction Hg as [x|C s op cs vs n y Hleaf Hne Hf Hr Hg IH]; intros e g' Hd Hcs Hy.
  - exists g', e. split; [constructor|]. split; [reflexivity|auto].
  - pose proof (growth_size _ _ _ _ _ _ Hg) as Hgs. rewrite (grow_size nf C s op cs Hleaf Hf) in Hgs.
    assert (Hlc : 1 <= List.length cs) by (destruct cs; [congruence|cbn; lia]).
    pose proof (proj1 Hreg) as HlD. pose proof (registered_D _ _ _ _ HlD Hr) as Ha. pose proof (denotes_size _ _ _ Hd) as Hlen.
    destruct (find_place F e _ _ Hd) as (C' & ts & i & Hrep & Hc & HC & Hts & Hl & Hs & Hi). unfold represents in Hrep.
    rewrite <- Hts in Hleaf. apply xleaf_lit in Hleaf. rewrite (tleaf_size ts Hleaf) in Hl.
    destruct (leaves_draw F nf cs (consts e) Hf ltac:(lia)) as (tc & Hok & Hm & Hdraw); [lia|].
    pose proof (leaf_values_all cs) as Hlv.
    pose proof (grow_denotes F C' ts op tc cs (consts e) (flat_map leaf_values cs) (var_names e) nf Hc Hok Hm) as Hden. rewrite HC in Hden.
    destruct (IH _ g' Hden) as (g4 & e' & D4 & E4 & Hd' & Hsz).
    { cbn [consts]. rewrite app_length, (grow_size nf C s op cs); [lia| |auto]. rewrite <- Hts. now apply xleaf_lit. }
    { exact Hy. }
    destruct (Hdraw g4) as (g3 & D3 & E3).
    assert (Hp : In i (positions is_leaf_node (nodes e))).
    { apply positions_in. rewrite Hrep. eexists. split; [exact (subtree_at_root _ _ _ Hs)|]. destruct ts; [reflexivity|reflexivity|destruct Hleaf]. }
    destruct (pick_draw _ _ g3 Hp) as (g2 & D2 & E2).
    destruct (sample_draw D reg (Nat.min (max_size - xsize (xplug C s)) D) (List.length cs) op g2 HlD) as (g & g1 & D0 & E0 & E1); [lia|auto|].
    exists g, e'. split. { eapply draws_trans0; [exact D0|]. eapply draws_trans0; [exact D2|]. eapply draws_trans; eauto. }
    split; [|auto]. cbn [append_ops_loop]. rewrite Hlen. destruct (Nat.eqb_spec (max_size - xsize (xplug C s)) 0) as [|_]; [lia|].
    rewrite total_ok by exact HlD. cbn [bind].
    match goal with |- context [count_up_to reg ?k =? 0] => destruct (Nat.eqb_spec (count_up_to reg k) 0) as [Hz|_] end.
    { exfalso. revert Hr. apply (count_zero reg (Nat.min (Nat.min (max_size - xsize (xplug C s)) D) D)); lia. }
    rewrite E0. cbn [bind]. rewrite E1. cbn [bind snd]. destruct (positions is_leaf_node (nodes e)) as [|p ps] eqn:Ep; [destruct Hp|].
    rewrite E2. cbn [bind]. rewrite E3. cbn [bind]. rewrite as_u8_small by lia.
    assert (Hlt' : List.length tc = List.length cs) by (rewrite <- Hm, map_length; reflexivity).
    assert (S2 : splice (nodes e) i i (flat_map flatten tc ++ [Op (List.length cs) op]) = Ok (before C' ++ flatten (TOp op tc) ++ after C')).
    { rewrite Hrep, flatten_tplug. rewrite splice_mid; [|lia|rewrite flatten_length, (tleaf_size ts Hleaf); lia]. cbn [flatten]. now rewrite Hlt'. }
    rewrite S2. cbn [bind]. exact E4.
Qed.

(** Every formula with that many operators, at least one, within the size limit, can be an initial member. *)
Theorem C70_random_expr_append_ops : forall (T : Type) (F : FloatOps T) D nf known reg max_size (x : xtree T) (g' : rng T),
  setting D nf known reg -> x_ok D nf (reg_known reg) x -> ~ xleaf x -> xsize x <= max_size -> max_size <= u16_max ->
  exists vs g e, Permutation vs (xconsts x) /\ draws vs g g'
    /\ random_expr_append_ops F D reg nf (xops x) max_size g = Ok (e, g') /\ denotes F e x.
Proof.
  intros T F D nf known reg max_size x g' Hset Hx Hl Hsz Hmax. pose proof Hset as (Hreg & Hnf & HD). pose proof (xsize_pos x) as Hp.
  destruct (growth_to D nf reg x ltac:(lia) Hx Hl (XConst (fzero F)) I) as (vs & Hg & Hpm).
  destruct (append_ops_loop_draw F D nf known reg (Nat.max max_size 1) Hset ltac:(lia) vs (xops x) _ x Hg (expr_zero F) g') as (g & e' & D1 & E1 & Hd' & Hc').
  - exists (TConst 0). split; [reflexivity|]. split; [|reflexivity]. intros i [Hi|[]]. injection Hi as <-. cbn. lia.
  - cbn. lia.
  - lia.
  - assert (Hd : denotes F (mkExpr (nodes e') (consts e') []) x) by (destruct Hd' as (t' & ? & ? & ?); exists t'; auto).
    destruct (compress_denotes F _ _ Hd) as (e2 & b & E2 & Hd2 & _); [cbn [consts]; lia|].
    exists vs, g, e2. split; auto. split; auto. split; auto. unfold random_expr_append_ops. rewrite E1. cbn [bind var_names expr_zero]. rewrite E2. reflexivity.
Qed.

(** ** Connectedness *)
(** Successful additions and deletions of nodes, one after another. *)
Inductive edits {T} (D : nat) (reg : registry) (nf : nat) : expr T -> expr T -> Prop :=
| edits_nil e : edits D reg nf e e
| edits_add e e1 e2 g g' : add_node D reg nf g e = Ok (true, e1, g') -> edits D reg nf e1 e2 -> edits D reg nf e e2
| edits_delete e e1 e2 g g' : delete_random_op g e = Ok (true, e1, g') -> edits D reg nf e1 e2 -> edits D reg nf e e2.

Lemma edits_trans {T} D reg nf (e1 e2 e3 : expr T) : edits D reg nf e1 e2 -> edits D reg nf e2 e3 -> edits D reg nf e1 e3.
Proof. induction 1; intros; auto; [eapply edits_add|eapply edits_delete]; eauto. Qed.

Definition some_rng {T} (v : T) : rng T := mkRng (fun _ => 0) (fun _ => v).

Lemma shrink_to_leaf {T} (F : FloatOps T) D reg nf known : forall n (e : expr T) x, xsize x <= n -> denotes F e x -> x_ok D nf known x -> xsize x <= u16_max ->
  List.length (consts e) <= xsize x ->
  exists e' x', edits D reg nf e e' /\ denotes F e' x' /\ x_ok D nf known x' /\ xleaf x' /\ List.length (consts e') <= 1.
Proof.
  induction n as [|n IH]; intros e x Hn Hd Hx Hc1 Hc2; [pose proof (xsize_pos x); lia|].
  destruct x as [f|v|op cs].
  - exists e, (XVar f). repeat split; auto. constructor.
  - exists e, (XConst v). repeat split; auto. constructor.
  - cbn [x_ok] in Hx. destruct Hx as (Hlen & Hk & Hcs). destruct cs as [|c cs]; [cbn in Hlen; lia|]. cbn in Hcs. destruct Hcs as [Hc _].
    destruct (C70_delete T F e Hole op [] c cs Hd ltac:(lia) (some_rng (fzero F))) as (g & e1 & _ & E1 & Hd1 & Hs1). cbn [plug] in *.
    assert (Hlt : xsize c < xsize (XOp op (c :: cs))) by (cbn; lia).
    destruct (IH e1 c) as (e' & x' & H1 & H2 & H3 & H4 & H5); auto; try lia.
    exists e', x'. repeat split; auto. eapply edits_delete; eauto.
Qed.

Lemma edits_growth {T} (F : FloatOps T) D nf known reg : setting D nf known reg ->
  forall vs n (x y : xtree T), growth reg nf vs n x y -> forall e, denotes F e x -> List.length (consts e) <= xsize x -> xsize y + D <= u16_max ->
  exists e', edits D reg nf e e' /\ denotes F e' y /\ List.length (consts e') <= xsize y.
Proof.
  intros Hset vs n x y Hg. induction Hg as [x|C s op cs vs n y Hleaf Hne Hf Hr Hg IH]; intros e Hd Hc Hy.
  - exists e. repeat split; auto. constructor.
  - pose proof (growth_size _ _ _ _ _ _ Hg) as Hgs. rewrite (grow_size nf C s op cs Hleaf Hf) in Hgs.
    destruct (C70_add T F D nf known reg e _ Hd Hset) as [Hadd _]; [lia|].
    destruct (Hadd C s op cs eq_refl Hleaf Hne Hf Hr (some_rng (fzero F))) as (g & e1 & _ & E1 & Hd1 & Hs1).
    destruct (IH e1 Hd1 Hs1 Hy) as (e' & H1 & H2 & H3). exists e'. repeat split; auto. eapply edits_add; eauto.
Qed.

(** From any formula to any other by additions and deletions alone. *)
Theorem C70_connected : forall (T : Type) (F : FloatOps T) D nf known reg (e : expr T) (x y : xtree T),
  setting D nf known reg -> (exists a op, 1 <= a /\ registered reg a op) ->
  denotes F e x -> x_ok D nf (reg_known reg) x -> List.length (consts e) <= xsize x -> xsize x <= u16_max ->
  x_ok D nf (reg_known reg) y -> xsize y + 2 * D <= u16_max ->
  exists e', edits D reg nf e e' /\ denotes F e' y.
Proof.
  intros T F D nf known reg e x y Hset (a & op & Ha & Hr) Hd Hx Hc Hsx Hy Hsy. pose proof Hset as (Hreg & Hnf & HD).
  pose proof (registered_D _ _ _ _ (proj1 Hreg) Hr) as HaD.
  destruct (shrink_to_leaf F D reg nf (reg_known reg) (xsize x) e x) as (e0 & s0 & Hed & Hd0 & Hx0 & Hl0 & Hc0); auto; try lia.
  assert (Hgrow : forall y', ~ xleaf y' -> x_ok D nf (reg_known reg) y' -> xsize y' + D <= u16_max ->
    exists e', edits D reg nf e e' /\ denotes F e' y' /\ List.length (consts e') <= xsize y').
  { intros y' Hl Hok Hsz. destruct (growth_to D nf reg y' ltac:(lia) Hok Hl s0 Hl0) as (vs & Hg & _).
    destruct (edits_growth F D nf known reg Hset vs (xops y') s0 y' Hg e0 Hd0) as (e' & H1 & H2 & H3); [rewrite (xleaf_size s0 Hl0); lia|lia|].
    exists e'. repeat split; auto. eapply edits_trans; eauto. }
  assert (Hdec : xleaf y \/ ~ xleaf y) by (destruct y; cbn; tauto).
  destruct Hdec as [Hl|Hl]; [|destruct (Hgrow y Hl Hy) as (e' & H1 & H2 & _); [lia|eauto]].
  set (y' := XOp op (y :: repeat (XVar 0) (a - 1))).
  assert (Hszl : sum_list (map xsize (repeat (@XVar T 0) (a - 1))) = a - 1).
  { generalize (a - 1). intros k. induction k; cbn in *; auto. }
  destruct (Hgrow y') as (e1 & H1 & H2 & H3).
  - unfold y'. cbn. tauto.
  - unfold y'. cbn [x_ok List.length map fold_right]. rewrite repeat_length. replace (S (a - 1)) with a by lia. split; [lia|]. split; [now apply reg_known_spec|]. split; auto.
    rewrite fold_right_and_Forall. apply Forall_forall. intros z Hz. apply repeat_spec in Hz. subst z. cbn. lia.
  - unfold y'. cbn [xsize map sum_list fold_right]. change (fold_right Nat.add 0 (map xsize (repeat (XVar 0) (a - 1)))) with (sum_list (map xsize (repeat (@XVar T 0) (a - 1)))).
    rewrite Hszl. rewrite (xleaf_size y Hl) in *. lia.
  - destruct (C70_delete T F e1 Hole op [] y (repeat (XVar 0) (a - 1)) H2) with (g' := some_rng (fzero F)) as (g & e2 & _ & E2 & Hd2 & _).
    { unfold y' in H3. cbn [xsize map sum_list fold_right] in H3. change (fold_right Nat.add 0 (map xsize (repeat (XVar 0) (a - 1)))) with (sum_list (map xsize (repeat (@XVar T 0) (a - 1)))) in H3.
      rewrite Hszl, (xleaf_size y Hl) in *. lia. }
    exists e2. split; [|exact Hd2]. eapply edits_trans; [exact H1|]. eapply edits_delete; [exact E2|constructor].
Qed.

(** ** Cases *)
(** The premises hold for x0 + 2 * (- x1) (C19_case_setting); an initial population can contain it, crossover can exchange its
    last operand, and it can be turned into the constant 7. *)
Lemma demo_reg_ok : setting 2 2 demo_known demo_reg /\ x_ok 2 2 (reg_known demo_reg) demo_x /\ ~ xleaf demo_x /\ xsize demo_x = 6 /\ xops demo_x = 3.
Proof. split; [apply C19_case_setting|]. split; [|cbn; tauto]. cbn. intuition lia. Qed.

Example C70_case_initial : exists vs g e, vs = [2%Z] /\ draws vs g demo_rng /\ random_expr_append_ops zops 2 demo_reg 2 3 20 g = Ok (e, demo_rng) /\ denotes zops e demo_x.
Proof.
  destruct demo_reg_ok as (H1 & H2 & H3 & H4 & H5).
  destruct (C70_random_expr_append_ops Z zops 2 2 demo_known demo_reg 20 demo_x demo_rng H1 H2 H3) as (vs & g & e & Hp & Hd & E & Hden); [lia|unfold u16_max; lia|].
  rewrite H5 in E. exists vs, g, e. split; auto. cbn in Hp. now apply Permutation_length_1_inv, eq_sym in Hp || (apply Permutation_sym, Permutation_length_1_inv in Hp; auto).
Qed.

Example C70_case_connected : exists e', edits 2 demo_reg 2 demo_expr e' /\ denotes zops e' (XConst 7%Z).
Proof.
  destruct demo_reg_ok as (H1 & H2 & H3 & H4 & H5). destruct C19_case_setting as (_ & Hd & _).
  apply (C70_connected Z zops 2 2 demo_known demo_reg demo_expr demo_x (XConst 7%Z)); auto.
  - exists 1, 22. split; [lia|]. left. reflexivity.
  - cbn. lia.
  - rewrite H4. unfold u16_max. lia.
  - exact I.
  - cbn. unfold u16_max. lia.
Qed.

Print Assumptions C70_constant.
Print Assumptions C70_operator.
Print Assumptions C70_feature.
Print Assumptions C70_swap.
Print Assumptions C70_rotate.
Print Assumptions C70_insert.
Print Assumptions C70_prepend.
Print Assumptions C70_append.
Print Assumptions C70_add.
Print Assumptions C70_delete.
Print Assumptions C70_crossover.
Print Assumptions C70_random_expr.
Print Assumptions C70_random_expr_append_ops.
Print Assumptions C70_connected.
