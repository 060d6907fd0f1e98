(** Proof support for the mutations. *)
From Verif Require Import Base BaseLemmas Node Tree NodeProofs SpanProofs Utils UtilsProofs PropUtils Rng Registry PropRegistry Lit Mutation.

(** A registry for arity bound [D]: under each arity only known operators of that arity. *)
Definition reg_ok (D : nat) (known : nat -> nat -> bool) (reg : registry) : Prop :=
  List.length reg = D /\ forall a op, 1 <= a <= D -> In op (ops_of_arity reg a) -> fst op = a /\ known a (snd op) = true.

(** Operator number [op] is registered under arity [a]. *)
Definition registered (reg : registry) (a op : nat) : Prop := In (a, op) (ops_of_arity reg a).

Lemma total_ok D reg max : List.length reg = D -> total_ops_up_to D reg max = Ok (count_up_to reg (Nat.min max D)).
Proof. intros H. unfold total_ops_up_to. apply sum_nops_ok. lia. Qed.

Lemma sample_ok {T} D known reg (g : rng T) max : reg_ok D known reg -> 0 < count_up_to reg (Nat.min max D) ->
  exists a op g1 g2, sample_arity D reg g max = Ok (a, g1) /\ sample_op reg g1 a = Ok (op, g2)
    /\ 1 <= a <= Nat.min max D /\ registered reg a (snd op) /\ known a (snd op) = true.
Proof.
  intros [HD Hreg] Hc. pose proof (C17_sample_arity T D reg g max HD) as H. cbn zeta in H.
  destruct (Nat.ltb_spec 0 (count_up_to reg (Nat.min max D))); [|lia].
  destruct H as (a & r & g1 & E1 & _ & Ha & Hne & _).
  pose proof (C17_sample_op T D reg g1 a HD ltac:(lia)) as H2. unfold registered.
  destruct (ops_of_arity reg a) as [|o l] eqn:Eo; [congruence|]. destruct H2 as (op & g2 & E2 & Hin).
  destruct (Hreg a op ltac:(lia)) as [H3 H4]; [now rewrite Eo|].
  exists a, op, g1, g2. rewrite Eo. repeat split; auto; try lia. destruct op as [a' o']. cbn in *. now subst a'.
Qed.

Lemma count_zero reg n : count_up_to reg n = 0 -> forall a op, 1 <= a <= n -> ~ registered reg a op.
Proof.
  intros H a op Ha Hr. unfold registered in Hr.
  assert (count_up_to reg a <= 0) by (rewrite <- H; apply count_mono; lia).
  assert (Ec : count_up_to reg a = count_up_to reg (a - 1) + List.length (ops_of_arity reg a)).
  { replace a with (S (a - 1)) at 1 3 by lia. apply count_app. }
  destruct (ops_of_arity reg a); [destruct Hr|]. cbn in Ec. lia.
Qed.

Lemma count_pos reg n a op : 1 <= a <= n -> registered reg a op -> 0 < count_up_to reg n.
Proof. intros H1 H2. destruct (Nat.eq_dec (count_up_to reg n) 0) as [E|]; [|lia]. exfalso. eapply count_zero; eauto. Qed.

(** Positions. *)
Lemma positions_in p ns i : In i (positions p ns) <-> exists n, nth_error ns i = Some n /\ p n = true.
Proof.
  unfold positions. rewrite filter_In, in_seq. split.
  - intros [_ H]. destruct (nth_error ns i) as [n|]; [eauto|discriminate].
  - intros (n & E & H). rewrite E. split; auto. split; [lia|]. apply nth_error_Some. congruence.
Qed.

Lemma positions_nil p ns : positions p ns = [] <-> forall n, In n ns -> p n = false.
Proof.
  split.
  - intros H n Hn. apply In_nth_error in Hn as [i Hi]. destruct (p n) eqn:E; auto. exfalso.
    assert (In i (positions p ns)) by (apply positions_in; eauto). rewrite H in *. auto.
  - intros H. destruct (positions p ns) as [|i l] eqn:E; auto. exfalso.
    assert (Hi : In i (positions p ns)) by (rewrite E; left; auto). apply positions_in in Hi as (n & En & Hp).
    rewrite (H n) in Hp; [discriminate|]. eapply nth_error_In; eauto.
Qed.

Lemma pick_ok {T} (g : rng T) l : l <> [] -> exists i g', pick g l = Ok (i, g') /\ In i l.
Proof.
  intros H. unfold pick. destruct (usize_range_ok g 0 (List.length l)) as (k & g' & E & Hk).
  { destruct l; [congruence|cbn; lia]. }
  rewrite E. cbn [bind]. unfold index. destruct (nth_error l k) as [i|] eqn:En; [|apply nth_error_None in En; lia].
  cbn. exists i, g'. split; auto. eapply nth_error_In; eauto.
Qed.

(** Slices and splices around a known middle part. *)
Lemma slice_incl_mid {A} (pl m pr : list A) lo hi : List.length pl = lo -> lo + List.length m = hi + 1 ->
  slice_incl (pl ++ m ++ pr) lo hi = Ok m.
Proof.
  intros <- H. unfold slice_incl. rewrite !app_length.
  destruct (Nat.leb_spec (List.length pl) (hi + 1)); [|lia].
  destruct (Nat.leb_spec (hi + 1) (List.length pl + (List.length m + List.length pr))); [|lia]. cbn [andb]. f_equal.
  rewrite skipn_app, skipn_all2 by lia. rewrite Nat.sub_diag. cbn [skipn app].
  replace (hi + 1 - List.length pl) with (List.length m + 0) by lia. rewrite firstn_app_2. cbn. now rewrite app_nil_r.
Qed.

Lemma splice_mid {A} (pl m pr x : list A) lo hi : List.length pl = lo -> lo + List.length m = hi + 1 ->
  splice (pl ++ m ++ pr) lo hi x = Ok (pl ++ x ++ pr).
Proof.
  intros <- H. unfold splice. rewrite !app_length.
  destruct (Nat.leb_spec (List.length pl) (hi + 1)); [|lia].
  destruct (Nat.leb_spec (hi + 1) (List.length pl + (List.length m + List.length pr))); [|lia]. cbn [andb]. f_equal.
  f_equal; [|f_equal].
  - replace (List.length pl) with (List.length pl + 0) by lia. rewrite firstn_app_2. cbn. apply app_nil_r.
  - rewrite app_assoc, skipn_app, skipn_all2 by (rewrite app_length; lia).
    rewrite app_length. replace (hi + 1 - (List.length pl + List.length m)) with 0 by lia. reflexivity.
Qed.

Lemma upd_mid {A} (pl pr : list A) y x i : List.length pl = i -> upd (pl ++ y :: pr) i x = pl ++ x :: pr.
Proof. intros <-. induction pl; cbn; congruence. Qed.

Lemma set_index_mid {A} (pl pr : list A) y x i : List.length pl = i -> set_index (pl ++ y :: pr) i x = Ok (pl ++ x :: pr).
Proof.
  intros H. unfold set_index. rewrite app_length. cbn [List.length]. destruct (Nat.ltb_spec i (List.length pl + S (List.length pr))); [|lia].
  rewrite upd_mid by exact H. reflexivity.
Qed.

(** The subtree rooted at a position, as a hole of the whole. *)
Lemma node_ctx t i n : nth_error (flatten t) i = Some n ->
  exists C s, t = tplug C s /\ List.length (before C) + tsize s = i + 1 /\ root_node s = n /\ subtree_at t i s.
Proof.
  intros H. destruct (subtree_at_exists t i) as [s Hs].
  { rewrite <- flatten_length. apply nth_error_Some. congruence. }
  destruct (subtree_at_ctx _ _ _ Hs) as (C & -> & Hl). exists C, s. repeat split; auto.
  pose proof (subtree_at_root _ _ _ Hs). congruence.
Qed.

Lemma denotes_intro {T} (F : FloatOps T) C s s' cs ex names :
  ids_below (List.length cs) (flatten (tplug C s)) -> ids_below (List.length (cs ++ ex)) (flatten s') ->
  denotes F (mkExpr (before C ++ flatten s' ++ after C) (cs ++ ex) names)
    (xplug (map_ctx (lit (const_at F cs)) C) (lit (const_at F (cs ++ ex)) s')).
Proof.
  intros H1 H2. rewrite flatten_tplug, !ids_below_app in H1. destruct H1 as (H3 & _ & H4).
  exists (tplug C s'). split; [|split].
  - unfold represents. cbn [nodes]. now rewrite flatten_tplug.
  - cbn [nodes consts]. change (ids_below (List.length (cs ++ ex)) (before C ++ flatten s' ++ after C)).
    rewrite !ids_below_app. repeat split; auto; (eapply ids_below_le; [|eassumption]); rewrite app_length; lia.
  - cbn [consts]. rewrite lit_plug. f_equal. apply lit_ctx_ext. intros i Hi. symmetry. apply const_at_app.
    apply in_app_or in Hi as [Hi|Hi]; auto.
Qed.

Lemma denotes_intro0 {T} (F : FloatOps T) C s s' cs names :
  ids_below (List.length cs) (flatten (tplug C s)) -> ids_below (List.length cs) (flatten s') ->
  denotes F (mkExpr (before C ++ flatten s' ++ after C) cs names)
    (xplug (map_ctx (lit (const_at F cs)) C) (lit (const_at F cs) s')).
Proof.
  intros H1 H2. pose proof (denotes_intro F C s s' cs [] names H1) as H. rewrite app_nil_r in H. auto.
Qed.

Lemma lit_old {T} (F : FloatOps T) cs ex s : ids_below (List.length cs) (flatten s) -> lit (const_at F (cs ++ ex)) s = lit (const_at F cs) s.
Proof. intros H. apply lit_ext. intros i Hi. apply const_at_app. apply H. now apply const_ids_in. Qed.

(** Leaves. *)
Definition tleaf (t : tree) : Prop := match t with TOp _ _ => False | _ => True end.
Definition xleaf {T} (x : xtree T) : Prop := match x with XOp _ _ => False | _ => True end.
Lemma xleaf_lit {T} (c : nat -> T) t : xleaf (lit c t) <-> tleaf t.
Proof. destruct t; cbn; tauto. Qed.
Lemma tleaf_size t : tleaf t -> tsize t = 1.
Proof. destruct t; cbn; tauto. Qed.

(** What a new leaf is: a feature in range or a new constant. *)
Definition leaf_ok (nf nc : nat) (t : tree) : Prop :=
  match t with TVar f => f < nf | TConst i => i < nc | TOp _ _ => False end.
Lemma leaf_ok_le nf n m t : n <= m -> leaf_ok nf n t -> leaf_ok nf m t.
Proof. destruct t; cbn; lia. Qed.
Lemma leaf_ok_leaf nf n t : leaf_ok nf n t -> tleaf t.
Proof. destruct t; cbn; tauto. Qed.
Lemma leaf_ok_ids nf n t : leaf_ok nf n t -> ids_below n (flatten t).
Proof. destruct t; cbn; intros H j Hj; cbn in Hj; intuition congruence. Qed.
Lemma leaf_ok_x {T} D nf n known (c : nat -> T) t : leaf_ok nf n t -> x_ok D nf known (lit c t).
Proof. destruct t; cbn; tauto. Qed.

Lemma random_leaf_ok {T} (g : rng T) nf (cs : list T) : 1 <= nf <= S u16_max -> List.length cs <= u16_max ->
  exists l g' ex t, random_leaf g nf cs = Ok (l, g', cs ++ ex) /\ [l] = flatten t /\ leaf_ok nf (List.length (cs ++ ex)) t /\ List.length ex <= 1.
Proof.
  intros Hnf Hl. unfold random_leaf. destruct (rng_bool g) as [b g1] eqn:Eb. destruct b.
  - destruct (rng_real g1) as [v g2] eqn:Er. destruct (Nat.leb_spec (List.length cs) u16_max); [|lia].
    exists (Const (List.length cs)), g2, [v], (TConst (List.length cs)). rewrite app_length. cbn. repeat split; lia.
  - destruct (usize_range_ok g1 0 nf) as (f & g2 & E & Hf); [lia|]. rewrite E. cbn [bind].
    destruct (Nat.leb_spec f u16_max); [|lia]. exists (Var f), g2, [], (TVar f). rewrite app_nil_r. cbn. repeat split; lia.
Qed.

Lemma random_leaves_ok {T} nf n : forall (g : rng T) (cs : list T), 1 <= nf <= S u16_max -> List.length cs + n <= S u16_max ->
  exists ls g' ex ts, random_leaves n g nf cs = Ok (ls, g', cs ++ ex) /\ ls = flat_map flatten ts /\ List.length ts = n
    /\ Forall (leaf_ok nf (List.length (cs ++ ex))) ts /\ List.length ex <= n.
Proof.
  induction n as [|n IH]; intros g cs Hnf Hl; cbn [random_leaves].
  - exists [], g, [], []. rewrite app_nil_r. cbn. repeat split; auto.
  - destruct (random_leaf_ok g nf cs Hnf) as (l & g1 & ex1 & t & E1 & Ht & Hok & Hex); [lia|]. rewrite E1. cbn [bind].
    destruct (IH g1 (cs ++ ex1) Hnf) as (ls & g2 & ex2 & ts & E2 & Hts & Hlen & Hf & Hex2); [rewrite app_length; lia|].
    rewrite E2. cbn [bind]. exists (l :: ls), g2, (ex1 ++ ex2), (t :: ts). rewrite app_assoc. split; auto.
    split; [cbn; now rewrite <- Ht, <- Hts|]. split; [cbn; lia|]. split; [|rewrite app_length; lia].
    constructor; auto. eapply leaf_ok_le; [|exact Hok]. rewrite !app_length; lia.
Qed.

Lemma carry_children_ok {T} nf s n : forall j carry (g : rng T) (cs : list T), 1 <= nf <= S u16_max -> List.length cs + n <= S u16_max ->
  exists ls g' ex ts, carry_children j n carry (flatten s) g nf cs = Ok (ls, g', cs ++ ex) /\ ls = flat_map flatten ts /\ List.length ts = n
    /\ List.length ex <= n
    /\ (carry < j \/ j + n <= carry -> Forall (leaf_ok nf (List.length (cs ++ ex))) ts)
    /\ (j <= carry < j + n -> exists l r, ts = l ++ s :: r /\ List.length l = carry - j /\ Forall (leaf_ok nf (List.length (cs ++ ex))) (l ++ r)).
Proof.
  induction n as [|n IH]; intros j carry g cs Hnf Hl; cbn [carry_children].
  - exists [], g, [], []. rewrite app_nil_r. cbn. repeat split; auto. intros. lia.
  - destruct (Nat.eqb_spec j carry) as [->|Hne]; cbn [bind].
    + destruct (IH (S carry) carry g cs Hnf) as (ls & g' & ex & ts & E & Hts & Hlen & Hex & H1 & _); [lia|].
      rewrite E. cbn [bind]. exists (flatten s ++ ls), g', ex, (s :: ts). split; auto. split; [cbn; now rewrite Hts|].
      split; [cbn; lia|]. split; [lia|]. split; [intros; lia|]. intros _. exists [], ts. cbn. rewrite Nat.sub_diag. repeat split.
      apply H1. lia.
    + destruct (random_leaf_ok g nf cs Hnf) as (l & g1 & ex1 & t & E1 & Ht & Hok & Hex1); [lia|]. rewrite E1. cbn [bind].
      destruct (IH (S j) carry g1 (cs ++ ex1) Hnf) as (ls & g' & ex & ts & E & Hts & Hlen & Hex & H1 & H2); [rewrite app_length; lia|].
      rewrite E. cbn [bind]. exists ([l] ++ ls), g', (ex1 ++ ex), (t :: ts). rewrite app_assoc. split; auto.
      split; [cbn [flat_map]; now rewrite <- Ht, <- Hts|]. split; [cbn; lia|]. split; [rewrite app_length; lia|].
      assert (Hok' : leaf_ok nf (List.length ((cs ++ ex1) ++ ex)) t) by (eapply leaf_ok_le; [|exact Hok]; rewrite !app_length; lia).
      split.
      * intros Hc. constructor; auto. apply H1. lia.
      * intros Hc. destruct H2 as (l' & r & -> & Hl' & Hf); [lia|]. exists (t :: l'), r. cbn. split; auto. split; [lia|]. constructor; auto.
Qed.

Lemma as_u8_small a : a <= u8_max -> as_u8 a = a.
Proof. intros H. unfold as_u8. apply Nat.mod_small. lia. Qed.

Lemma proper_leaf {T} D nf known (c : nat -> T) t : x_ok D nf known (lit c t) -> exists n, In n (flatten t) /\ is_leaf_node n = true.
Proof.
  induction t as [f|i|op cs IH] using tree_ind'; intros H.
  - exists (Var f). cbn; auto.
  - exists (Const i). cbn; auto.
  - cbn [lit x_ok] in H. destruct H as (H1 & _ & H2). rewrite map_length in H1. rewrite map_map, fold_right_and_Forall in H2.
    destruct cs as [|c0 cs]; [cbn in H1; lia|]. inversion IH; subst. inversion H2; subst.
    destruct H3 as (n & Hn & Hl); auto. exists n. split; auto. cbn. apply in_or_app. left. apply in_or_app. auto.
Qed.

(** Remapping the constants of a donated subtree. *)
Lemma remap_loop_ok {T} (donor : list T) ns : forall dst mp, ids_below (List.length donor) ns ->
  List.length mp = List.length donor -> List.length dst + List.length donor <= S u16_max + List.length (filter (fun o => match o with Some _ => true | None => false end) mp) ->
  (forall o v, nth_error mp o = Some (Some v) -> nth_error dst v = nth_error donor o) ->
  exists out ex f, remap_loop ns donor dst mp = Ok (out, dst ++ ex) /\ out = map (rename_pnode f) ns
    /\ (forall o, In (Const o) ns -> nth_error (dst ++ ex) (f o) = nth_error donor o)
    /\ (forall o v, nth_error mp o = Some (Some v) -> f o = v)
    /\ List.length ex + List.length (filter (fun o => match o with Some _ => true | None => false end) mp) <= List.length donor.
Proof.
  induction ns as [|n ns IH]; intros dst mp Hids Hlen Hcap Hmp; cbn [remap_loop].
  - exists [], [], (fun o => match nth_error mp o with Some (Some v) => v | _ => 0 end). rewrite app_nil_r.
    repeat split; auto; [intros o []|intros o v ->; auto|].
    cbn. rewrite <- Hlen. clear. induction mp as [|[v|] mp IH]; cbn; lia.
  - assert (Hids' : ids_below (List.length donor) ns) by (intros i Hi; apply Hids; right; auto).
    destruct n as [f0|old|a op].
    + destruct (IH dst mp Hids' Hlen Hcap Hmp) as (out & ex & f & E & Ho & H1 & H2 & H3). rewrite E. cbn [bind].
      exists (Var f0 :: out), ex, f. repeat split; auto; [cbn; now rewrite Ho|]. intros o [Ho'|Ho']; [discriminate|auto].
    + assert (Hold : old < List.length donor) by (apply Hids; left; auto).
      unfold index at 1. destruct (nth_error mp old) as [[v|]|] eqn:En; [| |apply nth_error_None in En; lia]; cbn [expect bind].
      * destruct (IH dst mp Hids' Hlen Hcap Hmp) as (out & ex & f & E & Ho & H1 & H2 & H3). rewrite E. cbn [bind].
        exists (Const v :: out), ex, f. repeat split; auto; [cbn; now rewrite Ho, (H2 _ _ En)|].
        intros o [Ho'|Ho']; [|auto]. injection Ho' as <-. rewrite (H2 _ _ En). rewrite nth_error_app1; [auto|].
        apply nth_error_Some. rewrite (Hmp _ _ En). apply nth_error_Some. lia.
      * assert (Hf : List.length (filter (fun o => match o with Some _ => true | None => false end) mp) < List.length mp).
        { clear -En. revert old En. induction mp as [|[w|] mp IH]; intros [|old] En; cbn in *; try discriminate; try lia.
          - specialize (IH _ En). lia.
          - clear. induction mp as [|[w|] mp IH]; cbn; lia.
          - specialize (IH _ En). lia. }
        destruct (Nat.leb_spec (List.length dst) u16_max) as [_|Hgt]; [|lia].
        unfold index. destruct (nth_error donor old) as [c|] eqn:Ec; [|apply nth_error_None in Ec; lia]. cbn [expect bind].
        unfold set_index. destruct (Nat.ltb_spec old (List.length mp)); [|lia]. cbn [bind].
        set (mp' := upd mp old (Some (List.length dst))).
        assert (Hf' : List.length (filter (fun o => match o with Some _ => true | None => false end) mp')
                      = S (List.length (filter (fun o => match o with Some _ => true | None => false end) mp))).
        { subst mp'. generalize (List.length dst). intros k. clear -En. revert old En. induction mp as [|[w|] mp IH]; intros [|old] En; cbn in *; try discriminate; auto.
          }
        destruct (IH (dst ++ [c]) mp' Hids') as (out & ex & f & E & Ho & H1 & H2 & H3).
        { subst mp'. now rewrite upd_length. }
        { rewrite Hf', app_length. cbn. lia. }
        { intros o v Hv. subst mp'. destruct (Nat.eq_dec o old) as [->|Hne].
          - rewrite nth_error_upd_same in Hv by lia. injection Hv as <-. rewrite nth_error_app2, Nat.sub_diag by lia. now rewrite Ec.
          - rewrite nth_error_upd_other in Hv by auto. specialize (Hmp _ _ Hv) as Hm. rewrite nth_error_app1; auto.
            apply nth_error_Some. rewrite Hm. apply nth_error_Some. rewrite <- Hlen. apply nth_error_Some. congruence. }
        rewrite E. cbn [bind]. rewrite <- app_assoc in E. cbn [app] in E. exists (Const (List.length dst) :: out), (c :: ex), f.
        assert (Hfo : f old = List.length dst) by (apply H2; subst mp'; now rewrite nth_error_upd_same by lia).
        rewrite <- app_assoc in *. cbn [app] in *. split; auto. split; [cbn; now rewrite Hfo, Ho|].
        split.
        { intros o [Ho'|Ho']; [|auto]. injection Ho' as <-. rewrite Hfo, nth_error_app2, Nat.sub_diag by lia. now rewrite Ec. }
        split.
        { intros o v Hv. apply H2. subst mp'. rewrite nth_error_upd_other; auto. congruence. }
        rewrite Hf' in H3. cbn. lia.
    + destruct (IH dst mp Hids' Hlen Hcap Hmp) as (out & ex & f & E & Ho & H1 & H2 & H3). rewrite E. cbn [bind].
      exists (Op a op :: out), ex, f. repeat split; auto; [cbn; now rewrite Ho|]. intros o [Ho'|Ho']; [discriminate|auto].
Qed.

Lemma remap_ok {T} (F : FloatOps T) (donor dst : list T) s : ids_below (List.length donor) (flatten s) ->
  List.length dst + List.length donor <= S u16_max ->
  exists ex s', remap_subtree_consts (flatten s) donor dst = Ok (flatten s', dst ++ ex)
    /\ ids_below (List.length (dst ++ ex)) (flatten s') /\ tsize s' = tsize s
    /\ lit (const_at F (dst ++ ex)) s' = lit (const_at F donor) s /\ List.length ex <= List.length donor.
Proof.
  intros Hids Hcap. unfold remap_subtree_consts.
  assert (Hnone : filter (fun o : option nat => match o with Some _ => true | None => false end) (fill (List.length donor) None) = []).
  { clear. unfold fill. induction (List.length donor); cbn; auto. }
  destruct (remap_loop_ok donor (flatten s) dst (fill (List.length donor) None)) as (out & ex & f & E & Ho & H1 & _ & H3).
  - exact Hids.
  - unfold fill. apply repeat_length.
  - rewrite Hnone. cbn. lia.
  - intros o v Hv. exfalso. apply nth_error_In in Hv. unfold fill in Hv. apply repeat_spec in Hv. discriminate.
  - exists ex, (rename_tree f s). rewrite flatten_rename, E, Ho. split; auto.
    assert (Hb : forall o, In (Const o) (flatten s) -> f o < List.length (dst ++ ex)).
    { intros o Hin. apply nth_error_Some. rewrite (H1 _ Hin). apply nth_error_Some. auto. }
    split; [|split; [|split]].
    + intros i Hi. apply in_map_iff in Hi as ([|o|] & En & Hn); try discriminate. cbn in En. injection En as <-. auto.
    + rewrite <- !flatten_length, flatten_rename. apply map_length.
    + rewrite lit_rename. apply lit_ext. intros o Hin. apply const_ids_in in Hin. unfold const_at.
      apply nth_error_nth. rewrite (H1 _ Hin). apply nth_error_nth'. auto.
    + rewrite Hnone in H3. cbn in H3. lia.
Qed.
