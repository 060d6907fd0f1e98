(** Properties C13-C15: expression simplification. *)
From Verif Require Import Base BaseLemmas Node Tree NodeProofs Compile Eval EvalProofs Utils UtilsProofs PropUtils Simplify FoldProofs CombineProofs CombineValue Instances.
From Coq Require Import Ring_theory SpecFloat.

(** ** Specification *)

(** The operator applications and variables of [e'] all occur in [e]. *)
Definition ops_vars_from {T} (e' e : expr T) : Prop :=
  forall n, In n (nodes e') -> match n with Const _ => True | _ => In n (nodes e) end.

(** The identifier of subtraction is only applied to two operands in [e]. Identifiers are unique per
    arity only, so an operator set may give it to, say, a unary operator too. *)
Definition minus_is_binary {T} (cfg : ccfg) (e : expr T) : Prop :=
  forall a k, In (Op a k) (nodes e) -> sub_id cfg = Some k -> a = 2.

(** The configured identifiers are those of exact addition, multiplication and subtraction. *)
Record exact_arith {T} (F : FloatOps T) (O : OpSet T) (cfg : ccfg) : Prop := mkExact {
  ex_ring : ring_theory (fzero F) (fone F) (fadd F) (fmul F) (fsub F) (fneg F) eq;
  ex_add : forall k x y, add_id cfg = Some k -> oeval O 2 k [x; y] = fadd F x y;
  ex_mul : forall k x y, mul_id cfg = Some k -> oeval O 2 k [x; y] = fmul F x y;
  ex_sub : forall k x y, sub_id cfg = Some k -> oeval O 2 k [x; y] = fsub F x y }.

(** ** Nodes of the result *)
Lemma fold_nodes_from {T} (F : FloatOps T) O D o ns : forall s s' (seen : list pnode),
  foldM (fold_step F O D o) ns s = Ok s' ->
  (forall n, In n (fo_nodes s) -> match n with Const _ => True | _ => In n seen end) ->
  forall n, In n (fo_nodes s') -> match n with Const _ => True | _ => In n (seen ++ ns) end.
Proof.
  induction ns as [|m ns IH]; intros s s' seen H Hs; cbn [foldM] in H.
  - injection H as <-. intros n Hn. specialize (Hs n Hn). rewrite app_nil_r. auto.
  - destruct (fold_step F O D o s m) as [s1| |] eqn:E; try discriminate. cbn [bind] in H.
    replace (seen ++ m :: ns) with ((seen ++ [m]) ++ ns) by now rewrite <- app_assoc.
    eapply IH; [exact H|]. clear H IH s'.
    assert (Hold : forall n, In n (fo_nodes s) -> match n with Const _ => True | _ => In n (seen ++ [m]) end).
    { intros n Hn. specialize (Hs n Hn). destruct n; auto; apply in_or_app; auto. }
    assert (Hadd : forall n, In n (fo_nodes s ++ [m]) -> match n with Const _ => True | _ => In n (seen ++ [m]) end).
    { intros n Hn. apply in_app_or in Hn as [Hn|[<-|[]]]; [exact (Hold n Hn)|]. destruct m; auto; apply in_or_app; right; left; auto. }
    destruct m as [f|i|a op]; cbn [fold_step] in E.
    + injection E as <-. exact Hadd.
    + destruct (index (fo_consts s) i); try discriminate. cbn [bind] in E. injection E as <-. exact Hadd.
    + destruct (a <=? D); [|discriminate]. cbn [assert_ bind] in E.
      destruct (popn a (fo_stack s)) as [[ch rest]|]; [|injection E as <-; exact Hadd].
      destruct ch as [|c0 ch]; [discriminate|].
      destruct (negb _); [injection E as <-; exact Hadd|].
      destruct (existsb _ _); [injection E as <-; exact Hadd|].
      destruct (ops_eval _ _ _ _ _ _ _) as [[out ok]| |]; try discriminate. cbn [bind] in E.
      destruct (index out 0); try discriminate. cbn [bind] in E.
      destruct (negb _); [injection E as <-; exact Hadd|].
      destruct (u16_max <? _); [injection E as <-; exact Hadd|].
      injection E as <-. cbn [fo_nodes]. intros n Hn. apply in_app_or in Hn as [Hn|[<-|[]]]; [|exact I].
      apply Hold. eapply firstn_in; eauto.
Qed.

Lemma fold_ops_vars {T} (F : FloatOps T) O D o e e' ch : simplify_tree_in_place F O D o e = Ok (e', ch) -> ops_vars_from e' e.
Proof.
  unfold simplify_tree_in_place. destruct (foldM _ _ _) as [s| |] eqn:E; try discriminate. cbn [bind].
  destruct (fo_changed s); intros H; injection H as <- <-; intros n Hn; cbn in *.
  - pose proof (fold_nodes_from _ _ _ _ _ _ _ [] E ltac:(cbn; tauto) n Hn) as G. destruct n; auto.
  - destruct n; auto.
Qed.

(** Kinds of arena nodes. *)
Definition akind (a : anode) : option pnode :=
  match a with AVar f => Some (Var f) | AConst _ => None | AOp a op _ => Some (Op a op) end.

Lemma parse_kinds D ns : forall s ar st seen,
  foldM (parse_step D) ns s = Ok (Some (ar, st)) ->
  (forall ar0 st0, s = Some (ar0, st0) -> forall x n, In x ar0 -> akind x = Some n -> In n seen) ->
  forall x n, In x ar -> akind x = Some n -> In n (seen ++ ns).
Proof.
  induction ns as [|m ns IH]; intros s ar st seen H Hs; cbn [foldM] in H.
  - injection H as ->. rewrite app_nil_r. eauto.
  - destruct (parse_step D s m) as [s1| |] eqn:E; try discriminate. cbn [bind] in H.
    replace (seen ++ m :: ns) with ((seen ++ [m]) ++ ns) by now rewrite <- app_assoc.
    eapply IH; [exact H|]. intros ar0 st0 -> x n Hx Hk. destruct s as [[ar1 st1]|]; cbn [parse_step] in E; [|discriminate].
    assert (G : forall y, akind y = None \/ akind y = Some m -> In x (ar1 ++ [y]) -> In n (seen ++ [m])).
    { intros y Hy Hi. apply in_app_or in Hi as [Hi|[<-|[]]].
      - apply in_or_app. left. eapply Hs; eauto.
      - destruct Hy as [Hy|Hy]; rewrite Hy in Hk; [discriminate|]. injection Hk as <-. apply in_or_app. right. left. auto. }
    destruct m as [f|i|a op].
    + injection E as <- <-. eapply G; eauto. right; reflexivity.
    + injection E as <- <-. eapply G; eauto. left; reflexivity.
    + destruct (popn a st1) as [[cs rest]|]; [|discriminate]. destruct (a <=? D); [|discriminate]. cbn [assert_ bind] in E.
      injection E as <- <-. eapply G; eauto. right; reflexivity.
Qed.

Lemma ut_kinds D nf known nc ar : wfa D nf known nc ar -> forall k id n, id < k -> id < List.length ar ->
  In n (flatten (ut ar id)) -> match n with Const _ => True | _ => exists x, In x ar /\ akind x = Some n end.
Proof.
  intros W. induction k as [|k IH]; intros id n Hk Hl Hin; [lia|].
  destruct (nth_error ar id) as [a|] eqn:E; [|apply nth_error_None in E; lia]. pose proof (nth_error_In _ _ E) as Hi.
  destruct a as [v|i|a op ch].
  - rewrite (ut_var _ _ _ E) in Hin. destruct Hin as [<-|[]]. exists (AVar v). auto.
  - rewrite (ut_const _ _ _ E) in Hin. destruct Hin as [<-|[]]. auto.
  - pose proof (W _ _ E) as (L & Ha & _ & Hf & _). rewrite (ut_op _ _ _ _ _ _ _ _ _ W E) in Hin. cbn [flatten] in Hin.
    rewrite map_length, firstn_length in Hin. replace (Nat.min a (List.length ch)) with a in Hin by lia.
    apply in_app_or in Hin as [Hin|[<-|[]]]; [|exists (AOp a op ch); auto].
    apply in_flat_map in Hin as (t & Ht & Hn). apply in_map_iff in Ht as (c & <- & Hc). apply firstn_in in Hc.
    rewrite Forall_forall in Hf. specialize (Hf c Hc). apply (IH c); auto; lia.
Qed.

Lemma ut_tree_ok D nf known nc ar : wfa D nf known nc ar -> forall k id, id < k -> id < List.length ar -> tree_ok D nf nc known (ut ar id).
Proof.
  intros W. induction k as [|k IH]; intros id Hk Hl; [lia|].
  destruct (nth_error ar id) as [a|] eqn:E; [|apply nth_error_None in E; lia]. pose proof (W _ _ E) as Wn.
  destruct a as [v|i|a op ch].
  - now rewrite (ut_var _ _ _ E).
  - now rewrite (ut_const _ _ _ E).
  - destruct Wn as (L & Ha & Hkn & Hf & _). rewrite (ut_op _ _ _ _ _ _ _ _ _ W E). cbn [tree_ok].
    rewrite map_length, firstn_length. replace (Nat.min a (List.length ch)) with a by lia. split; auto. split; auto.
    rewrite fold_right_and_Forall. apply Forall_forall. intros t Ht. apply in_map_iff in Ht as (c & <- & Hc). apply firstn_in in Hc.
    rewrite Forall_forall in Hf. specialize (Hf c Hc). apply (IH c); lia.
Qed.

Lemma subtree_nodes op ts t : subtree (TOp op ts) t -> In (Op (List.length ts) op) (flatten t).
Proof.
  intros H. remember (TOp op ts) as s eqn:Es. induction H as [t|s o cs c Hc Hs IH]; subst; cbn [flatten].
  - apply in_or_app. right. left. auto.
  - apply in_or_app. left. apply in_flat_map. exists c. auto.
Qed.

Lemma minus_sub_binary {T} cfg (e : expr T) t : represents e t -> minus_is_binary cfg e -> sub_binary cfg t.
Proof. intros Hr H op ts Hs Ho. apply (H _ op); auto. rewrite Hr. now apply subtree_nodes. Qed.

Lemma minus_from {T} cfg (e e' : expr T) : ops_vars_from e' e -> minus_is_binary cfg e -> minus_is_binary cfg e'.
Proof. intros H Hm a k Hin. apply Hm. exact (H _ Hin). Qed.

Lemma ops_vars_trans {T} (a b c : expr T) : ops_vars_from a b -> ops_vars_from b c -> ops_vars_from a c.
Proof. intros H1 H2 n Hn. specialize (H1 n Hn). destruct n; auto; exact (H2 _ H1). Qed.

(** ** C13 *)
Theorem C13_constant_folding : forall (T : Type) (F : FloatOps T) (O : OpSet T) D nf o (e : expr T) (t : tree) (d : T),
  represents e t -> tree_ok D nf (List.length (consts e)) (oknown O) t ->
  exists e' changed t' new,
    simplify_tree_in_place F O D o e = Ok (e', changed)
    (* still a valid expression over the same constants plus some finite new ones *)
    /\ represents e' t' /\ tree_ok D nf (List.length (consts e')) (oknown O) t'
    /\ consts e' = consts e ++ new /\ Forall (fun v => ffinite F v = true) new
    /\ var_names e' = var_names e /\ ops_vars_from e' e
    (* same value at every input, whatever the arithmetic *)
    /\ (forall var, teval O var (fun i => nth i (consts e') d) t' = teval O var (fun i => nth i (consts e) d) t)
    (* never larger; smaller by at least the number of constants added *)
    /\ tsize t' + List.length new <= tsize t
    (* the flag: nothing at all changed, or the tree got strictly smaller *)
    /\ (if changed then tsize t' < tsize t else e' = e)
    (* as long as there is room for constants (2^16), exactly the maximal foldable subtrees became constants, and
       no operator on finite constants with a finite result is left *)
    /\ (List.length (consts e) + tsize t <= S u16_max ->
          folded F O (fun i => nth i (consts e) d) (fun i => nth i (consts e') d) t t'
          /\ fully_folded F O (fun i => nth i (consts e') d) t').
Proof.
  intros T F O D nf o e t d Hr Hok.
  destruct (simplify_tree_spec F O D nf o d e t Hr Hok) as (e' & ch & t' & new & E & R & C & V & (G1 & G2 & G3 & G4) & H1 & H2 & HF & HS & HL & HX).
  exists e', ch, t', new. split; auto. split; auto. split; auto. split; auto. split; auto. split; auto.
  split; [eapply fold_ops_vars; eauto|]. split; [exact G2|]. split; auto.
  split; [destruct ch; [now apply H2|now apply H1]|]. intros Hroom. split; [now apply HX|].
  destruct G4 as [G4|G4]; [exact G4|]. exfalso. unfold cap in *.
  rewrite C, app_length in G4. pose proof (tsize_pos t'). lia.
Qed.

Example C13_case :
  let e := mkExpr [Const 0; Const 1; Op 2 0; Var 0; Op 2 5; Const 0; Op 1 22; Op 2 7] [10%Z; 20%Z] [] in
  let t := TOp 7 [TOp 5 [TOp 0 [TConst 0; TConst 1]; TVar 0]; TOp 22 [TConst 0]] in
  represents e t /\ tree_ok 2 1 2 (oknown (rational_ops zops)) t
  /\ simplify_tree_in_place zops (rational_ops zops) 2 (mkOpts true true) e
     = Ok (mkExpr [Const 2; Var 0; Op 2 5; Const 3; Op 2 7] [10%Z; 20%Z; 30%Z; (-10)%Z] [], true).
Proof. cbn. repeat split; lia. Qed.

(** 1/0 is not finite: the division stays. *)
Example C13_case_nonfinite :
  let one := f64lit 1 0 in let e := mkExpr [Const 0; Const 1; Op 2 2; Const 0; Const 0; Op 2 0; Op 2 5] [one; f64lit 0 0] [] in
  simplify_tree_in_place f64ops (rational_ops f64ops) 2 (mkOpts true true) e
  = Ok (mkExpr [Const 0; Const 1; Op 2 2; Const 2; Op 2 5] [one; f64lit 0 0; f64lit 2 0] [], true).
Proof. reflexivity. Qed.

(** ** C14 *)
Lemma combine_spec (T : Type) (F : FloatOps T) (D nf : nat) known cfg (e : expr T) (t : tree) :
  represents e t -> tree_ok D nf (List.length (consts e)) known t ->
  exists e' ch t' new,
    combine_operators F D cfg e = Ok (e', ch)
    /\ represents e' t' /\ tree_ok D nf (List.length (consts e')) known t'
    /\ consts e' = consts e ++ new /\ Forall (fun v => ffinite F v = true) new /\ var_names e' = var_names e
    /\ ops_vars_from e' e /\ tsize t' <= tsize t
    /\ (ch = false -> e' = e)
    /\ (forall O, exact_arith F O cfg -> minus_is_binary cfg e -> forall d var,
          teval O var (fun i => nth i (consts e') d) t' = teval O var (fun i => nth i (consts e) d) t).
Proof.
  intros Hr Hok. destruct (parse_spec D nf (List.length (consts e)) known t Hok) as (ar & Fp & Ep & L & W & R & N).
  unfold represents in Hr. unfold combine_operators. rewrite Hr, Ep. cbn [bind].
  pose proof (tsize_pos t) as Hpos.
  destruct (combine_node_post D nf known F cfg (S (tsize t - 1)) (tsize t - 1) ar (consts e) false W ltac:(lia) ltac:(lia)) as (r & Er & Hp).
  destruct (combine_node F cfg (S (tsize t - 1)) (tsize t - 1) ar (consts e) false) as [r0| |] eqn:Ecn; try discriminate.
  injection Er as ->. destruct r as [[[id' ar'] cs'] ch']. cbn [bind]. destruct Hp as ((Lar & Lcs & W' & Kinds & Sizes) & Hid & Hsz & (new & Hnew & Hfin) & _ & Hch & _).
  assert (Ht : ut ar (tsize t - 1) = t) by (eapply (proj1 (rep_ut_both D nf known _ ar W)); eauto).
  assert (Hval : forall O, exact_arith F O cfg -> minus_is_binary cfg e -> forall d var,
     teval O var (fun i => nth i cs' d) (ut ar' id') = teval O var (fun i => nth i (consts e) d) t).
  { intros O [X1 X2 X3 X4] Hm d var.
    assert (Hrg : in_range (List.length (consts e)) t) by (intros i Hi; eapply tree_ok_ids; eauto).
    destruct (combine_val F O cfg d X1 X2 X3 X4 _ _ _ _ _ _ Ecn t Fp R N Hrg (minus_sub_binary cfg e t Hr Hm))
      as (t' & F' & new' & R' & _ & _ & _ & _ & _ & _ & V).
    rewrite (proj1 (rep_ut_both D nf known _ ar' W') _ _ _ R'). apply V. }
  destruct (negb ch' && (id' =? tsize t - 1)) eqn:Eq.
  - apply andb_prop in Eq as [E1 E2]. apply negb_true_iff in E1. subst ch'. destruct (Hch eq_refl) as (_ & -> & _).
    exists e, false, t, []. rewrite app_nil_r. destruct e as [ns cs vn]. cbn in *. subst ns.
    split; auto. split; [reflexivity|]. split; auto. split; auto. split; auto. split; auto.
    split; [intros n Hn; destruct n; auto|]. split; auto.
  - rewrite (emit_spec D nf (List.length cs') known ar' W') by lia. cbn [bind].
    exists (mkExpr (flatten (ut ar' id')) cs' (var_names e)), ch', (ut ar' id'), new.
    split; auto. split; [reflexivity|]. cbn [consts var_names nodes].
    split. { apply (ut_tree_ok _ _ _ _ _ W' (S id')); lia. }
    split; auto. split; auto. split; auto.
    split. { intros n Hn. cbn [nodes] in Hn. pose proof (ut_kinds _ _ _ _ _ W' (S id') id' n ltac:(lia) ltac:(lia) Hn) as G.
      assert (K : forall x, In x ar' -> akind x = Some n -> In n (nodes e)).
      { intros x Hx Hk. apply In_nth_error in Hx as (p & Ep'). 
        destruct (nth_error ar p) as [y|] eqn:Ey; [|apply nth_error_None in Ey; assert (p < List.length ar') by (apply nth_error_Some; congruence); lia].
        destruct (Kinds _ _ Ey) as (x' & Ex' & Sk). rewrite Ep' in Ex'. injection Ex' as <-.
        assert (Hky : akind y = Some n) by (destruct x, y; cbn in Sk, Hk |- *; try tauto; try discriminate; intuition congruence).
        unfold parse_postfix_to_arena in Ep. destruct (foldM (parse_step D) (flatten t) (Some ([], []))) as [[[ar0 st0]|]| |] eqn:Ef; try discriminate.
        cbn [bind] in Ep. destruct st0 as [|r0 [|? ?]]; try discriminate. injection Ep as -> _. rewrite Hr.
        refine (parse_kinds D _ _ _ _ [] Ef _ y n (nth_error_In _ _ Ey) Hky). intros ? ? X. injection X as <- <-. cbn. tauto. }
      destruct n; auto; destruct G as (x & Hx & Hk); eauto. }
    split. { unfold size in Hsz. rewrite Ht in Hsz. exact Hsz. }
    split; [|exact Hval]. intros ->. exfalso. destruct (Hch eq_refl) as (_ & _ & ->). rewrite Nat.eqb_refl in Eq. discriminate.
Qed.

Theorem C14_combine_preserves_value : forall (T : Type) (F : FloatOps T) (O : OpSet T) D nf known cfg (e : expr T) (t : tree) (d : T),
  represents e t -> tree_ok D nf (List.length (consts e)) known t ->
  exact_arith F O cfg -> minus_is_binary cfg e ->
  exists e' changed t',
    combine_operators F D cfg e = Ok (e', changed)
    /\ represents e' t' /\ tree_ok D nf (List.length (consts e')) known t'
    /\ (changed = false -> e' = e)
    /\ forall var, teval O var (fun i => nth i (consts e') d) t' = teval O var (fun i => nth i (consts e) d) t.
Proof.
  intros T F O D nf known cfg e t d Hr Hok HX Hm.
  destruct (combine_spec T F D nf known cfg e t Hr Hok) as (e' & ch & t' & new & E & R & K & _ & _ & _ & _ & _ & Hc & V).
  exists e', ch, t'. repeat (split; [auto|]). intros var. apply V; auto.
Qed.

Lemma first_uses_le ns : List.length (first_uses ns) <= List.length ns.
Proof.
  assert (G : forall l acc, List.length (first_uses_from acc l) <= List.length acc + List.length l).
  { induction l as [|x l IH]; intros acc; cbn [first_uses_from List.length]; [lia|]. rewrite IH. destruct (existsb _ _); rewrite ?app_length; cbn; lia. }
  unfold first_uses. rewrite G. cbn [List.length plus]. clear G.
  induction ns as [|[f|i|a op] ns IH]; cbn [const_ids flat_map app List.length] in *; try lia.
Qed.

(** simplify.rs:503-512, all three passes. *)
Lemma simplify_all (T : Type) (F : FloatOps T) (O : OpSet T) D nf cfg o (e : expr T) (t : tree) (d : T) :
  represents e t -> tree_ok D nf (List.length (consts e)) (oknown O) t -> tsize t <= u16_max ->
  exists e' changed t',
    simplify_in_place F O D cfg o e = Ok (e', changed)
    /\ represents e' t' /\ tree_ok D nf (List.length (consts e')) (oknown O) t'
    /\ tsize t' <= tsize t /\ ops_vars_from e' e /\ var_names e' = var_names e
    /\ first_uses (nodes e') = seq 0 (List.length (consts e'))
    /\ (forall v, In v (consts e') -> In v (consts e) \/ ffinite F v = true)
    /\ (changed = false -> e' = e)
    /\ (exact_arith F O cfg -> minus_is_binary cfg e -> forall var,
          teval O var (fun i => nth i (consts e') d) t' = teval O var (fun i => nth i (consts e) d) t).
Proof.
  intros Hr Hok Hsz.
  destruct (C13_constant_folding T F O D nf o e t d Hr Hok) as (e1 & c1 & t1 & n1 & E1 & R1 & K1 & C1 & Fn1 & V1 & O1 & T1 & S1 & Fl1 & _).
  destruct (combine_spec T F D nf (oknown O) cfg e1 t1 R1 K1) as (e2 & c2 & t2 & n2 & E2 & R2 & K2 & C2 & Fn2 & V2 & O2 & S2 & Fl2 & T2).
  assert (Hu : List.length (first_uses (nodes e2)) <= u16_max).
  { rewrite first_uses_le. rewrite R2, flatten_length. lia. }
  destruct (C10_compress_constants T e2 t2 D nf (oknown O) R2 K2 Hu) as (e3 & c3 & t3 & E3 & R3 & K3 & V3 & T3 & N3 & U3 & M3 & _ & Fl3).
  assert (O3 : ops_vars_from e3 e2).
  { intros n Hn. revert N3 Hn. generalize (nodes e2) (nodes e3). intros l l'. induction 1 as [|a b l l' Hab _ IH]; [cbn; tauto|].
    intros [->|Hn].
    - destruct a as [f|i|a op]; [subst n; left; auto| |subst n; left; auto]. destruct Hab as (j & -> & _). exact I.
    - specialize (IH Hn). destruct n; auto; right; auto. }
  exists e3, (c1 || c2 || c3), t3. unfold simplify_in_place. rewrite E1. cbn [bind]. rewrite E2. cbn [bind]. rewrite E3. cbn [bind].
  split; [reflexivity|]. split; auto. split; auto.
  split. { assert (Hl : List.length (nodes e3) = List.length (nodes e2)) by (symmetry; eapply Forall2_len; eauto).
    rewrite R3, R2, !flatten_length in Hl. lia. }
  split; [eapply ops_vars_trans; eauto; eapply ops_vars_trans; eauto|]. split; [congruence|]. split; auto.
  split. { intros v Hv. assert (Hv2 : In v (consts e2)).
    { apply (in_map Some) in Hv. rewrite M3 in Hv. apply in_map_iff in Hv as (i & Hi & _). eapply nth_error_In; eauto. }
    rewrite C2, C1 in Hv2. apply in_app_or in Hv2 as [Hv2|Hv2]; [apply in_app_or in Hv2 as [Hv2|Hv2]|]; auto; right; rewrite Forall_forall in *; auto. }
  split. { intros H. apply orb_false_elim in H as [H H3]. apply orb_false_elim in H as [-> ->]. rewrite <- Fl1, <- (Fl2 eq_refl).
    now apply Fl3. }
  intros HX Hm var. rewrite T3, (T2 O HX (minus_from cfg e e1 O1 Hm)), T1. reflexivity.
Qed.

Theorem C14_simplify_preserves_value : forall (T : Type) (F : FloatOps T) (O : OpSet T) D nf cfg o (e : expr T) (t : tree) (d : T),
  represents e t -> tree_ok D nf (List.length (consts e)) (oknown O) t -> tsize t <= u16_max ->
  exact_arith F O cfg -> minus_is_binary cfg e ->
  exists e' changed t',
    simplify_in_place F O D cfg o e = Ok (e', changed) /\ represents e' t'
    /\ forall var, teval O var (fun i => nth i (consts e') d) t' = teval O var (fun i => nth i (consts e) d) t.
Proof.
  intros T F O D nf cfg o e t d Hr Hok Hs HX Hm.
  destruct (simplify_all T F O D nf cfg o e t d Hr Hok Hs) as (e' & ch & t' & E & R & _ & _ & _ & _ & _ & _ & _ & V).
  exists e', ch, t'. auto.
Qed.

(** simplify.rs:495-499 with the built-in identifiers of [+], [*] and [-] (operator_enum.rs). *)
Definition builtin_cfg : ccfg := mkCfg (Some 0) (Some 5) (Some 7).

Lemma zops_exact : exact_arith zops (rational_ops zops) builtin_cfg.
Proof.
  split; [exact Zth| | |]; intros k x y H; cbn in H; injection H as <-; reflexivity.
Qed.

Example C14_case :
  let e := mkExpr [Const 0; Const 1; Var 0; Op 2 7; Op 2 7; Const 2; Var 1; Const 0; Op 2 5; Op 2 5; Op 2 0] [10%Z; 20%Z; 3%Z] [] in
  minus_is_binary builtin_cfg e
  /\ combine_operators zops 2 builtin_cfg e
     = Ok (mkExpr [Var 0; Const 3; Op 2 7; Var 1; Const 4; Op 2 5; Op 2 0] [10%Z; 20%Z; 3%Z; 10%Z; 30%Z] [], true)
  /\ simplify_in_place zops (rational_ops zops) 2 builtin_cfg (mkOpts true true) e
     = Ok (mkExpr [Var 0; Const 0; Op 2 7; Var 1; Const 1; Op 2 5; Op 2 0] [10%Z; 30%Z] [], true).
Proof.
  split; [|split; reflexivity]. intros a k H. cbn in H. intros Hk. cbn in Hk. injection Hk as <-.
  repeat (destruct H as [H|H]; [try discriminate; injection H as <-; reflexivity|]). destruct H.
Qed.

(** The premise [minus_is_binary] is needed: among the built-in operators the unary [atanh] has the identifier 7
    of subtraction, and the rewriting of [c - (.. - ..)] does not check the operand's arity. Whatever the unary
    operator 7 computes ([g]), [c - g x] turns into [(c + c) - x]. *)
Definition with_unary7 (g : Z -> Z) : OpSet Z := {|
  oknown := fun a k => oknown (rational_ops zops) a k || ((a =? 1) && (k =? 7));
  oeval := fun a k args => match a, k, args with 1, 7, [x] => g x | _, _, _ => oeval (rational_ops zops) a k args end;
  opartial := opartial (rational_ops zops) |}.

Theorem C14_value_refuted_for_shared_id : forall (g : Z -> Z) (c : Z),
  let O := with_unary7 g in
  let e := mkExpr [Const 0; Var 0; Op 1 7; Op 2 7] [c] [] in
  let t := TOp 7 [TConst 0; TOp 7 [TVar 0]] in
  represents e t /\ tree_ok 2 1 1 (oknown O) t /\ exact_arith zops O builtin_cfg
  /\ exists e' t', simplify_in_place zops O 2 builtin_cfg (mkOpts true true) e = Ok (e', true) /\ represents e' t'
     /\ forall x, teval O (fun _ => x) (fun i => nth i (consts e) 0%Z) t = (c - g x)%Z
               /\ teval O (fun _ => x) (fun i => nth i (consts e') 0%Z) t' = (c + c - x)%Z.
Proof.
  intros g c O e t. split; [reflexivity|]. split; [cbn; repeat split; lia|].
  split. { split; [exact Zth| | |]; intros k x y H; cbn in H; injection H as <-; reflexivity. }
  exists (mkExpr [Const 0; Var 0; Op 2 7] [(c + c)%Z] []), (TOp 7 [TConst 0; TVar 0]). split; [reflexivity|]. split; [reflexivity|].
  intros x. split; reflexivity.
Qed.

(** ** C15 *)
Theorem C15_simplify_well_formed : forall (T : Type) (F : FloatOps T) (O : OpSet T) D nf cfg o (e : expr T) (t : tree),
  represents e t -> tree_ok D nf (List.length (consts e)) (oknown O) t -> tsize t <= u16_max ->
  exists e' changed t',
    simplify_in_place F O D cfg o e = Ok (e', changed)
    /\ represents e' t' /\ tree_ok D nf (List.length (consts e')) (oknown O) t'
    /\ List.length (nodes e') <= List.length (nodes e)
    /\ ops_vars_from e' e /\ var_names e' = var_names e
    (* the constants are exactly the used ones, numbered in order of first use, and the added ones are finite *)
    /\ first_uses (nodes e') = seq 0 (List.length (consts e'))
    /\ (forall v, In v (consts e') -> In v (consts e) \/ ffinite F v = true)
    /\ (changed = false -> e' = e).
Proof.
  intros T F O D nf cfg o e t Hr Hok Hs.
  destruct (simplify_all T F O D nf cfg o e t (fzero F) Hr Hok Hs) as (e' & ch & t' & E & R & K & S & Ov & Vn & U & Hc & Hf & _).
  exists e', ch, t'. split; [auto|]. split; [auto|]. split; [auto|]. split; [now rewrite R, Hr, !flatten_length|]. auto 8.
Qed.

(** Simplifying twice may differ from simplifying once, and the flag may stay [true] for ever: two constants whose
    sum overflows are swapped each time. *)
Theorem C15_idempotent_refuted :
  let big := f64lit 1 1023 in let bigger := f64lit 3 1022 in
  let e := mkExpr [Const 0; Const 1; Op 2 0] [big; bigger] [] in
  let e' := mkExpr [Const 0; Const 1; Op 2 0] [bigger; big] [] in
  let s := simplify_in_place f64ops (rational_ops f64ops) 2 builtin_cfg (mkOpts true true) in
  represents e (TOp 0 [TConst 0; TConst 1]) /\ tree_ok 2 1 2 (oknown (rational_ops f64ops)) (TOp 0 [TConst 0; TConst 1])
  /\ s e = Ok (e', true) /\ s e' = Ok (e, true) /\ e <> e'.
Proof. cbn [tree_ok map fold_right]. repeat split; try (cbn; lia); try reflexivity. intros H. inversion H. Qed.

Print Assumptions C13_constant_folding.
Print Assumptions C14_combine_preserves_value.
Print Assumptions C14_simplify_preserves_value.
Print Assumptions C14_value_refuted_for_shared_id.
Print Assumptions C15_simplify_well_formed.
Print Assumptions C15_idempotent_refuted.
