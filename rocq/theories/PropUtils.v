(** Properties C10-C12: constant compression, constant access, expression algebra. *)
From Verif Require Import Base BaseLemmas Node Tree NodeProofs Utils UtilsProofs Instances.

(** Every constant reference points into the constant table. *)
Definition consts_in_range {T} (e : expr T) : Prop :=
  forall i, In (Const i) (nodes e) -> i < List.length (consts e).

(** The constant indices of a node list, read left to right ([const_ids]), and each one at its first
    occurrence ([first_uses]), are defined in UtilsProofs. *)
Lemma const_ids_in ns i : In i (const_ids ns) <-> In (Const i) ns.
Proof.
  induction ns as [|n ns IH]; cbn; [tauto|]. destruct n; cbn; rewrite <- ?IH; intuition congruence.
Qed.

Lemma consts_in_range_ids {T} (e : expr T) : consts_in_range e <-> forall i, In i (const_ids (nodes e)) -> i < List.length (consts e).
Proof. unfold consts_in_range. split; intros H i Hi; apply H; now apply const_ids_in. Qed.

Lemma Forall2_map_r {A B} (R : A -> B -> Prop) (f : A -> B) l : (forall x, In x l -> R x (f x)) -> Forall2 R l (map f l).
Proof. induction l as [|x l IH]; cbn; intros H; constructor; auto. Qed.

Lemma tree_ok_ids D nf nc known t : tree_ok D nf nc known t -> forall i, In i (const_ids (flatten t)) -> i < nc.
Proof.
  induction t as [v|j|op ts IH] using tree_ind'; cbn; intros Ht i Hi; [tauto|destruct Hi; [lia|tauto]|].
  destruct Ht as (_ & _ & H3). rewrite const_ids_app in Hi. apply in_app_or in Hi as [Hi|Hi]; [|cbn in Hi; tauto].
  apply const_ids_in, in_flat_map in Hi as (c & Hc & Hi). rewrite fold_right_and_Forall in H3. rewrite Forall_forall in *.
  eapply IH; eauto. now apply const_ids_in.
Qed.

Lemma rename_tree_ok D nf nc nc' known f t :
  tree_ok D nf nc known t -> (forall i, In i (const_ids (flatten t)) -> f i < nc') ->
  tree_ok D nf nc' known (rename_tree f t).
Proof.
  induction t as [v|i|op ts IH] using tree_ind'; cbn [rename_tree tree_ok flatten const_ids]; intros H Hf; auto.
  - apply Hf. left; auto.
  - destruct H as (H1 & H2 & H3). rewrite map_length. split; auto. split; auto.
    rewrite fold_right_and_Forall in H3 |- *. rewrite Forall_map. rewrite Forall_forall in *.
    intros c Hc. apply IH; auto. intros i Hi. apply Hf. rewrite const_ids_app. apply in_or_app. left.
    apply const_ids_in in Hi. apply const_ids_in. apply in_flat_map. eauto.
Qed.

(** Compression fails exactly on out-of-range references or more than 65535 distinct constants. *)
Lemma compress_step_inv {T} (d : T) old pre n s s' :
  zinv d old pre s -> compress_step old s n = Ok s' ->
  (forall i, n = Const i -> i < List.length old) /\ List.length (first_uses (pre ++ [n])) <= sentinel.
Proof.
  intros (Ho & Hc & Hl & Hr & Hs & Hch) E. rewrite first_uses_snoc.
  destruct n as [f|idx|a op]; cbn [compress_step] in E.
  - split; [congruence|auto].
  - unfold index at 1 in E. destruct (nth_error (z_remap s) idx) as [slot|] eqn:En; [|discriminate].
    assert (Hlt : idx < List.length old) by (rewrite <- Hl; apply nth_error_Some; congruence).
    split; [congruence|]. rewrite (Hr idx Hlt) in En. injection En as <-. cbn [expect bind] in E.
    destruct (existsb (Nat.eqb idx) (first_uses pre)); auto.
    rewrite Nat.eqb_refl, Hc in E. unfold gather in E. rewrite map_length in E. rewrite app_length. cbn [List.length].
    destruct (Nat.leb_spec sentinel (List.length (first_uses pre))); [discriminate|]. lia.
  - split; [congruence|auto].
Qed.

Lemma compress_loop_inv {T} (d : T) old ns : forall pre s s',
  zinv d old pre s -> foldM (compress_step old) ns s = Ok s' ->
  (forall i, In i (const_ids ns) -> i < List.length old) /\ List.length (first_uses (pre ++ ns)) <= sentinel.
Proof.
  induction ns as [|n ns IH]; intros pre s s' Hz E; cbn [foldM] in E.
  - rewrite app_nil_r. split; [cbn; tauto|]. apply Hz.
  - destruct (compress_step old s n) as [s1| |] eqn:E1; try discriminate. cbn [bind] in E.
    destruct (compress_step_inv d old pre n s s1 Hz E1) as [H1 H2].
    destruct (compress_step_ok d old pre n s Hz H1 H2) as (s2 & E2 & Hz2). rewrite E1 in E2. injection E2 as <-.
    destruct (IH _ _ _ Hz2 E) as [H3 H4]. rewrite <- app_assoc in H4. split; auto.
    intros i Hi. destruct n as [f|j|a o]; cbn in Hi; auto. destruct Hi as [->|Hi]; auto.
Qed.

Lemma zinv_init {T} (d : T) old : zinv d old [] (mkZ [] (fill (List.length old) sentinel) [] false).
Proof.
  unfold zinv. cbn. unfold fill. repeat split; auto with arith; [apply repeat_length|].
  intros i Hi'. apply repeat_nth_error; auto.
Qed.

(** ** C10 *)
Theorem C10_compress_constants : forall (T : Type) (e : expr T) (t : tree) D nf known,
  represents e t -> tree_ok D nf (List.length (consts e)) known t -> List.length (first_uses (nodes e)) <= u16_max ->
  exists e' changed t',
    compress_constants e = Ok (e', changed)
    (* still a valid expression, with the same variable names, which are all the constants it needs *)
    /\ represents e' t' /\ tree_ok D nf (List.length (consts e')) known t' /\ var_names e' = var_names e
    (* same value, for every meaning of the operators and every input *)
    /\ (forall O var d, teval O var (fun i => nth i (consts e') d) t' = teval O var (fun i => nth i (consts e) d) t)
    (* only constant nodes change, and node by node each refers to the same constant as before *)
    /\ Forall2 (fun n n' => match n with
                            | Const i => exists j, n' = Const j /\ nth_error (consts e') j = nth_error (consts e) i
                            | _ => n' = n end) (nodes e) (nodes e')
    (* exactly the used constants, numbered 0, 1, ... in order of first use *)
    /\ first_uses (nodes e') = seq 0 (List.length (consts e'))
    /\ map Some (consts e') = map (nth_error (consts e)) (first_uses (nodes e))
    (* idempotent, and the flag tells whether anything changed *)
    /\ compress_constants e' = Ok (e', false)
    /\ (changed = false <-> e' = e).
Proof.
  intros T e t D nf known Hr Hok Hl.
  destruct (consts e) as [|d0 cs0] eqn:Ecs.
  - (* no constants at all: pick no default *)
    assert (Hids : const_ids (nodes e) = []).
    { destruct (const_ids (nodes e)) as [|i l] eqn:E; auto. exfalso.
      assert (Hin : In i (const_ids (flatten t))) by (unfold represents in Hr; rewrite <- Hr, E; left; auto).
      apply (tree_ok_ids _ _ _ _ _ Hok) in Hin. cbn in Hin. lia. }
    assert (Hf : first_uses (nodes e) = []) by (unfold first_uses; now rewrite Hids).
    assert (E : compress_constants e = Ok (e, false)).
    { unfold compress_constants. rewrite Ecs. cbn [List.length fill].
      assert (E : forall ns o, const_ids ns = [] -> foldM (compress_step (T:=T) []) ns (mkZ o [] [] false) = Ok (mkZ (o ++ ns) [] [] false)).
      { induction ns as [|n ns IH]; intros o Hn; cbn [foldM]; [now rewrite app_nil_r|].
        destruct n; cbn in Hn; try discriminate; cbn [compress_step bind z_out z_remap z_consts z_changed]; rewrite IH by auto; now rewrite <- app_assoc. }
      unfold fill. cbn [repeat]. rewrite E by auto. cbn. destruct e; cbn in *; subst; reflexivity. }
    exists e, false, t. rewrite E, Hf, Ecs. cbn [List.length seq map].
    split; [reflexivity|]. split; [exact Hr|]. split; [exact Hok|]. split; [reflexivity|]. split; [reflexivity|].
    split.
    { clear -Hids. induction (nodes e) as [|n ns IH]; constructor; destruct n; cbn in *; try discriminate; auto. }
    split; [reflexivity|]. split; [reflexivity|]. split; [reflexivity|]. split; auto.
  - rewrite <- Ecs in *. clear Ecs cs0. rename d0 into d.
    assert (Hin : forall i, In i (const_ids (nodes e)) -> i < List.length (consts e)).
    { unfold represents in Hr. rewrite Hr. eapply tree_ok_ids; eauto. }
    destruct (compress_spec d e Hin) as (b & Eb & Hb); [exact Hl|].
    set (u := first_uses (nodes e)) in *.
    assert (Huin : forall i, In i u -> i < List.length (consts e)) by (intros i Hi; apply Hin; now apply first_uses_in).
    assert (Hcl : List.length (consts (compressed d e)) = List.length u) by (cbn; unfold gather; now rewrite map_length).
    assert (Hnth : forall i d', In i u -> nth (pos i u) (consts (compressed d e)) d' = nth i (consts e) d').
    { intros i d' Hi. cbn [compressed consts]. fold u. unfold gather.
      rewrite (nth_indep _ d' (nth i (consts e) d)) by (rewrite map_length; now apply pos_lt).
      rewrite (nth_indep _ (nth i (consts e) d) (nth 0 (consts e) d)) by (rewrite map_length; now apply pos_lt).
      change (nth 0 (consts e) d) with ((fun i => nth i (consts e) d) 0). rewrite map_nth.
      rewrite (nth_error_nth u (pos i u) 0 (pos_nth i u Hi)). apply nth_indep. auto. }
    exists (compressed d e), b, (rename_tree (fun i => pos i u) t).
    split; [exact Eb|].
    split. { unfold represents in *. cbn [compressed nodes]. fold u. rewrite flatten_rename, Hr. apply map_ext. intros n. apply rename_node_pnode. }
    split. { apply (rename_tree_ok D nf (List.length (consts e))); auto. intros i Hi. rewrite Hcl. apply pos_lt. apply first_uses_in. unfold represents in Hr. now rewrite Hr. }
    split; [reflexivity|].
    split. { intros O var d'. rewrite teval_rename. apply teval_ext. intros i Hi. apply Hnth.
             apply first_uses_in. unfold represents in Hr. now rewrite Hr. }
    split. { cbn [compressed nodes]. fold u.
      assert (H : forall n, In n (nodes e) -> match n with
                            | Const i => exists j, rename_node u n = Const j /\ nth_error (consts (compressed d e)) j = nth_error (consts e) i
                            | _ => rename_node u n = n end).
      { intros [f|i|a o] Hn; cbn; auto. assert (Hi : In i u) by (apply first_uses_in; now apply const_ids_in).
        eexists; split; [reflexivity|].
        rewrite (nth_error_nth' (consts (compressed d e)) d) by (rewrite Hcl; now apply pos_lt).
        rewrite (nth_error_nth' (consts e) d) by auto. f_equal. now apply Hnth. }
      apply Forall2_map_r. exact H. }
    split. { rewrite first_uses_compressed. fold u. now rewrite Hcl. }
    split. { cbn [compressed consts]. fold u. unfold gather. rewrite map_map. apply map_ext_in. intros i Hi.
             symmetry. apply nth_error_nth'. auto. }
    split.
    { destruct (compress_spec d (compressed d e)) as (b' & Eb' & Hb').
      - intros i Hi. apply first_uses_in in Hi. rewrite first_uses_compressed in Hi. apply in_seq in Hi. rewrite Hcl. unfold u. lia.
      - rewrite first_uses_compressed, seq_length. exact Hl.
      - assert (Hfix : compressed d (compressed d e) = compressed d e) by (apply compressed_fix; rewrite first_uses_compressed, Hcl; reflexivity).
        rewrite Eb', Hfix. f_equal. f_equal.
        apply compressed_eq_iff in Hfix; [congruence|]. intros i Hi. apply first_uses_in in Hi. rewrite first_uses_compressed in Hi. apply in_seq in Hi. rewrite Hcl. unfold u. lia. }
    split.
    + intros ->. apply compressed_eq_iff; auto.
    + intros E. apply compressed_eq_iff in E; auto. unfold u in *. congruence.
Qed.

(** It panics exactly when a constant reference is out of range or there are more than 65535 distinct ones. *)
Theorem C10_compress_total_iff : forall (T : Type) (e : expr T),
  (exists r, compress_constants e = Ok r) <->
  consts_in_range e /\ List.length (first_uses (nodes e)) <= u16_max.
Proof.
  intros T e. rewrite consts_in_range_ids. destruct (consts e) as [|d cs] eqn:Ecs.
  - split.
    + intros [r H]. unfold compress_constants in H. rewrite Ecs in H. cbn [List.length fill repeat] in H. unfold fill in H. cbn [repeat] in H.
      assert (G : forall ns o s', foldM (compress_step (T:=T) []) ns (mkZ o [] [] false) = Ok s' -> const_ids ns = []).
      { induction ns as [|n ns IH]; intros o s' E; auto. destruct n as [f|i|a op]; cbn in E |- *; eauto. destruct i; discriminate. }
      destruct (foldM _ _ _) as [s'| |] eqn:E; try discriminate. apply G in E. unfold first_uses. rewrite E. cbn. split; [tauto|lia].
    + intros [H _]. assert (Hids : const_ids (nodes e) = []) by (destruct (const_ids (nodes e)) as [|i l]; auto; specialize (H i (or_introl eq_refl)); cbn in H; lia).
      unfold compress_constants. rewrite Ecs. unfold fill. cbn [List.length repeat].
      assert (E : forall ns o, const_ids ns = [] -> exists s', foldM (compress_step (T:=T) []) ns (mkZ o [] [] false) = Ok s').
      { induction ns as [|n ns IH]; intros o Hn; cbn [foldM]; eauto.
        destruct n; cbn in Hn; try discriminate; cbn [compress_step bind z_out z_remap z_consts z_changed]; apply IH; auto. }
      destruct (E (nodes e) [] Hids) as (s' & ->). cbn. eauto.
  - rewrite <- Ecs. split.
    + intros [r H]. unfold compress_constants in H. destruct (foldM _ _ _) as [s'| |] eqn:E; try discriminate.
      apply (compress_loop_inv d (consts e) (nodes e) []) in E; auto. apply zinv_init.
    + intros [H1 H2]. destruct (compress_spec d e H1 H2) as (b & E & _). eauto.
Qed.

Example C10_case :
  let e := mkExpr [Const 2; Var 0; Const 0; Const 2; Op 2 5; Op 2 0; Op 2 0] [10%Z; 20%Z; 30%Z] [] in
  compress_constants e = Ok (mkExpr [Const 0; Var 0; Const 1; Const 0; Op 2 5; Op 2 0; Op 2 0] [30%Z; 10%Z] [], true)
  /\ represents e (TOp 0 [TConst 2; TOp 0 [TVar 0; TOp 5 [TConst 0; TConst 2]]])
  /\ tree_ok 2 1 3 (oknown (rational_ops zops)) (TOp 0 [TConst 2; TOp 0 [TVar 0; TOp 5 [TConst 0; TConst 2]]]).
Proof. cbn. repeat split; lia. Qed.

(** ** C11 *)
Theorem C11_constants_round_trip : forall (T : Type) (e : expr T),
  let '(vs, cref) := get_scalar_constants e in
  vs = consts e
  /\ set_scalar_constants e vs cref = Ok e
  /\ forall vs', 
       (List.length vs' = List.length vs ->
          exists e', set_scalar_constants e vs' cref = Ok e' /\ nodes e' = nodes e /\ var_names e' = var_names e
            /\ get_scalar_constants e' = (vs', cref))
       /\ (List.length vs' <> List.length vs -> set_scalar_constants e vs' cref = Panic).
Proof.
  intros T e. unfold get_scalar_constants.
  assert (G : forall vs', List.length vs' = List.length (consts e) ->
    set_scalar_constants e vs' (seq 0 (List.length (consts e))) = Ok (mkExpr (nodes e) vs' (var_names e))).
  { intros vs' H. unfold set_scalar_constants. rewrite seq_length, H, Nat.eqb_refl. cbn [assert_ bind].
    pose proof (set_consts_loop_spec vs' (List.length (consts e)) 0 [] (consts e)) as Hs. cbn [app] in Hs.
    rewrite Hs; auto. }
  split; auto. split; [rewrite G by auto; now destruct e|]. intros vs'. split.
  - intros H. eexists; split; [apply G; auto|]. cbn. rewrite H. auto.
  - intros H. unfold set_scalar_constants. rewrite seq_length. apply Nat.eqb_neq in H. now rewrite H.
Qed.

(** Any reference, also one to some of the constants only, in any order: the k-th value goes to the k-th constant referred to (the last one, if one is named
    twice), all the others stay; a reference beyond the table panics. *)
Lemma set_consts_loop_any {T} (vs : list T) : forall dsts k cs, k + List.length dsts = List.length vs ->
  (forall cs', set_consts_loop dsts k vs cs = Ok cs' -> List.length cs' = List.length cs
     /\ (forall j i, nth_error dsts j = Some i -> (forall j', j < j' -> nth_error dsts j' <> Some i) -> nth_error cs' i = nth_error vs (k + j))
     /\ (forall i, ~ In i dsts -> nth_error cs' i = nth_error cs i))
  /\ (Forall (fun i => i < List.length cs) dsts -> exists cs', set_consts_loop dsts k vs cs = Ok cs')
  /\ (Exists (fun i => List.length cs <= i) dsts -> set_consts_loop dsts k vs cs = Panic).
Proof.
  induction dsts as [|d dsts IH]; intros k cs Hk; cbn [set_consts_loop].
  - split; [|split; [eauto|intros He; inversion He]]. intros cs' [= <-]. split; auto. split; auto. intros [|j] i; discriminate.
  - cbn [List.length] in Hk. unfold index. destruct (nth_error vs k) as [v|] eqn:Ev; [|apply nth_error_None in Ev; lia]. cbn [expect bind].
    unfold set_index. destruct (Nat.ltb_spec d (List.length cs)) as [Hd|Hd]; cbn [bind].
    + destruct (IH (S k) (upd cs d v)) as (I1 & I2 & I3); [lia|]. rewrite upd_length in *. split; [|split].
      * intros cs' E. destruct (I1 cs' E) as (J1 & J2 & J3). split; auto. split.
        -- intros [|j] i Hj Hlast; cbn in Hj.
           ++ injection Hj as <-. rewrite Nat.add_0_r. rewrite J3.
              ** rewrite nth_error_upd_same by auto. auto.
              ** intros Hin. apply In_nth_error in Hin as (j & Hj). apply (Hlast (S j)); [lia|auto].
           ++ rewrite (J2 j i Hj); [f_equal; lia|]. intros j' Hj' Hc. apply (Hlast (S j')); [lia|auto].
        -- intros i Hn. rewrite J3 by (intros Hc; apply Hn; right; auto). apply nth_error_upd_other. intros ->. apply Hn. left; auto.
      * intros Hf. inversion Hf; subst. auto.
      * intros He. inversion He; subst; [lia|]. auto.
    + split; [intros cs' E; discriminate|]. split; [intros Hf; inversion Hf; subst; lia|auto].
Qed.
Theorem C11_any_reference : forall (T : Type) (e : expr T) (cref : list nat) (vs : list T), List.length vs = List.length cref ->
  (forall e', set_scalar_constants e vs cref = Ok e' ->
     nodes e' = nodes e /\ var_names e' = var_names e /\ List.length (consts e') = List.length (consts e)
     /\ (forall j i, nth_error cref j = Some i -> (forall j', j < j' -> nth_error cref j' <> Some i) -> nth_error (consts e') i = nth_error vs j)
     /\ (forall i, ~ In i cref -> nth_error (consts e') i = nth_error (consts e) i))
  /\ ((exists e', set_scalar_constants e vs cref = Ok e') <-> Forall (fun i => i < List.length (consts e)) cref).
Proof.
  intros T e cref vs Hl. destruct (set_consts_loop_any vs cref 0 (consts e)) as (I1 & I2 & I3); [lia|]. unfold set_scalar_constants. rewrite Hl, Nat.eqb_refl. cbn [assert_ bind]. split.
  - intros e' E. apply bind_ok in E as (cs & E & Ee). injection Ee as <-. cbn. destruct (I1 cs E) as (J1 & J2 & J3). auto 10.
  - split.
    + intros (e' & E). destruct (Forall_Exists_dec (fun i => i < List.length (consts e)) (fun i => lt_dec i _) cref) as [Hf|He]; auto.
      rewrite I3 in E; [discriminate|]. eapply Exists_impl; [|exact He]. cbn. lia.
    + intros Hf. destruct (I2 Hf) as (cs & ->). cbn. eauto.
Qed.

Example C11_case :
  let e := mkExpr [Const 1; Const 0; Op 2 0] [1%Z; 2%Z] [] in
  set_scalar_constants e [7%Z; 8%Z] (snd (get_scalar_constants e)) = Ok (mkExpr [Const 1; Const 0; Op 2 0] [7%Z; 8%Z] [])
  /\ set_scalar_constants e [7%Z] (snd (get_scalar_constants e)) = Panic
  /\ set_scalar_constants e [7%Z] [1] = Ok (mkExpr [Const 1; Const 0; Op 2 0] [1%Z; 7%Z] []).
Proof. repeat split; reflexivity. Qed.

(** ** C12 *)
(** When applying an operator to [args] keeps every constant index in 16 bits. *)
Definition indices_fit {T} (args : list (expr T)) : Prop :=
  forall l e r, args = l ++ e :: r ->
    List.length (flat_map consts l) <= u16_max
    /\ forall i, In (Const i) (nodes e) -> i + List.length (flat_map consts l) <= u16_max.

Lemma shift_nodes_inv off ns ns' : mapM (shift_node off) ns = Ok ns' -> forall i, In (Const i) ns -> i + off <= u16_max.
Proof.
  revert ns'; induction ns as [|n ns IH]; intros ns' E i Hi; [destruct Hi|]. cbn [mapM] in E.
  destruct (shift_node off n) as [n'| |] eqn:En; try discriminate. cbn [bind] in E.
  destruct (mapM (shift_node off) ns) as [ns1| |] eqn:Es; try discriminate.
  destruct Hi as [->|Hi]; [|eauto]. cbn in En. destruct (Nat.leb_spec (i + off) u16_max); [auto|discriminate].
Qed.

Lemma apply_loop_iff {T} (args : list (expr T)) : forall ns cs names,
  (exists r, apply_loop args ns cs names = Ok r) <->
  (forall l e r, args = l ++ e :: r -> List.length (cs ++ flat_map consts l) <= u16_max
     /\ forall i, In (Const i) (nodes e) -> i + List.length (cs ++ flat_map consts l) <= u16_max).
Proof.
  induction args as [|e args IH]; intros ns cs names; cbn [apply_loop].
  - split; eauto. intros _ l e r H. destruct l; discriminate.
  - split.
    + intros [r H]. destruct (Nat.ltb_spec u16_max (List.length cs)); [discriminate|].
      destruct (mapM (shift_node (List.length cs)) (nodes e)) as [sh| |] eqn:Es; try discriminate. cbn [bind] in H.
      intros l e' r' E. destruct l as [|e0 l].
      * injection E as -> ->. cbn [flat_map]. rewrite app_nil_r. split; [lia|]. eapply shift_nodes_inv; eauto.
      * injection E as -> ->. cbn [flat_map]. rewrite app_assoc. eapply IH; eauto.
    + intros H. destruct (H [] e args eq_refl) as [H1 H2]. cbn [flat_map] in *. rewrite app_nil_r in *.
      destruct (Nat.ltb_spec u16_max (List.length cs)); [lia|].
      rewrite shift_nodes_ok by (intros i Hi; apply H2; now apply const_ids_in). cbn [bind]. apply IH.
      intros l e' r E. rewrite <- app_assoc. apply (H (e :: l) e' r). now rewrite E.
Qed.

Lemma apply_loop_names {T} (args : list (expr T)) : forall ns cs names a b nm,
  apply_loop args ns cs names = Ok (a, b, nm) ->
  nm = match names with [] => hd [] (filter (fun l => negb (match l with [] => true | _ => false end)) (map var_names args)) | _ => names end.
Proof.
  induction args as [|e args IH]; intros ns cs names a b nm H; cbn [apply_loop] in H.
  - injection H as _ _ <-. destruct names; reflexivity.
  - destruct (u16_max <? _); [discriminate|]. destruct (mapM _ _); try discriminate. cbn [bind] in H.
    apply IH in H. rewrite H. destruct names; auto. cbn [map filter]. destruct (var_names e); reflexivity.
Qed.

Lemma apply_loop_gen {T} es ts : Forall2 (@represents T) es ts ->
  forall ns cs names a b nm, apply_loop es ns cs names = Ok (a, b, nm) ->
  a = ns ++ flat_map flatten (shifted_trees (List.length cs) es ts) /\ b = cs ++ all_consts es.
Proof.
  induction 1 as [|e t es ts He _ IH]; intros ns cs names a b nm E; cbn [apply_loop shifted_trees flat_map] in *.
  - injection E as <- <- _. cbn. now rewrite !app_nil_r.
  - destruct (Nat.ltb_spec u16_max (List.length cs)); [discriminate|].
    destruct (mapM (shift_node (List.length cs)) (nodes e)) as [sh| |] eqn:Es; try discriminate. cbn [bind] in E.
    assert (Hsh : sh = map (shift_pnode (List.length cs)) (nodes e)).
    { rewrite shift_nodes_ok in Es; [congruence|]. intros i Hi. eapply shift_nodes_inv; eauto. now apply const_ids_in. }
    apply IH in E as [-> ->]. rewrite app_length, <- !app_assoc. unfold represents in He. rewrite Hsh, He, flatten_rename.
    split; reflexivity.
Qed.

Lemma shifted_ok {T} D nf known (es : list (expr T)) ts : Forall2 represents es ts ->
  Forall (fun et => tree_ok D nf (List.length (consts (fst et))) known (snd et)) (combine es ts) ->
  forall off nc, off + List.length (all_consts es) <= nc ->
  Forall (tree_ok D nf nc known) (shifted_trees off es ts).
Proof.
  induction 1 as [|e t es ts He _ IH]; intros Hok off nc Hnc; cbn [shifted_trees]; constructor.
  - inversion Hok as [|? ? H1 H2]; subst. cbn [fst snd all_consts flat_map] in *. rewrite app_length in Hnc.
    apply (rename_tree_ok D nf (List.length (consts e))); auto.
    intros i Hi. cbn. clear -H1 Hi Hnc.
    enough (i < List.length (consts e)) by lia. eapply tree_ok_ids; eauto.
  - inversion Hok as [|? ? H1 H2]; subst. apply IH; auto. cbn [all_consts flat_map] in Hnc. rewrite app_length in Hnc. unfold all_consts. lia.
Qed.

(** Applying an operator succeeds exactly when its arity is allowed and the indices fit in 16 bits; the
    result is then a valid expression whose value is the operator applied to the values of the parts, each
    with its own constants. *)
Theorem C12_apply_operator : forall (T : Type) D nf known op_id (args : list (expr T)) (ts : list tree),
  args <> [] -> known (List.length args) op_id = true ->
  Forall2 (fun e t => represents e t /\ tree_ok D nf (List.length (consts e)) known t) args ts ->
  ((exists e, apply_postfix D op_id args = Ok e) <-> List.length args <= D /\ indices_fit args)
  /\ forall e, apply_postfix D op_id args = Ok e ->
     exists t, represents e t /\ tree_ok D nf (List.length (consts e)) known t
     /\ consts e = flat_map consts args
     /\ var_names e = hd [] (filter (fun l => negb (match l with [] => true | _ => false end)) (map var_names args))
     /\ forall O var d,
          teval O var (fun i => nth i (consts e) d) t
          = oeval O (List.length args) op_id
              (map (fun et => teval O var (fun i => nth i (consts (fst et)) d) (snd et)) (combine args ts)).
Proof.
  intros T D nf known op_id args ts Hne Hk Hok.
  assert (Hr : Forall2 represents args ts) by (revert Hok; clear; induction 1 as [|? ? ? ? [] ]; constructor; auto).
  assert (Hok' : Forall (fun et => tree_ok D nf (List.length (consts (fst et))) known (snd et)) (combine args ts)).
  { revert Hok; clear; induction 1 as [|? ? ? ? [] ]; constructor; auto. }
  assert (Hc : Forall (fun e => forall i, In i (const_ids (nodes e)) -> i < List.length (consts e)) args).
  { revert Hok; clear; induction 1 as [|e t es ts [He Ht] _ IH]; constructor; auto. intros i Hi.
    unfold represents in He. rewrite He in Hi. eapply tree_ok_ids; eauto. }
  assert (Hlen : List.length args = List.length ts) by (eapply Forall2_len; eauto).
  split.
  - unfold apply_postfix. split.
    + intros [e H]. destruct (Nat.leb_spec (List.length args) D); [|discriminate]. cbn [assert_ bind] in H. split; auto.
      destruct (apply_loop args [] [] []) as [r| |] eqn:E; try discriminate.
      intros l e' r' Es. assert (E' : exists r, apply_loop args [] [] [] = Ok r) by eauto.
      rewrite apply_loop_iff in E'. exact (E' l e' r' Es).
    + intros [HD Hf]. apply Nat.leb_le in HD. rewrite HD. cbn [assert_ bind].
      destruct (proj2 (apply_loop_iff args [] [] [])) as [[[a b] nm] ->]; [exact Hf|]. cbn [bind]. eauto.
  - intros e H. unfold apply_postfix in H. destruct (Nat.leb_spec (List.length args) D) as [HD|]; [|discriminate]. cbn [assert_ bind] in H.
    destruct (apply_loop args [] [] []) as [[[a b] nm]| |] eqn:E; try discriminate. injection H as <-.
    pose proof (apply_loop_names _ _ _ _ _ _ _ E) as Hnm. apply (apply_loop_gen args ts Hr) in E as [-> ->].
    exists (TOp op_id (shifted_trees 0 args ts)). cbn [app consts nodes var_names].
    assert (Hsl : List.length (shifted_trees 0 args ts) = List.length args) by (rewrite shifted_length; auto).
    split. { unfold represents. cbn [nodes flatten]. now rewrite Hsl. }
    split. { cbn [tree_ok]. rewrite Hsl. split; [destruct args; [congruence|cbn in *; lia]|]. split; auto.
      rewrite fold_right_and_Forall. apply (shifted_ok D nf known args ts); auto. }
    split; [reflexivity|]. split; [exact Hnm|].
    intros O var d. cbn [teval]. rewrite Hsl. f_equal.
    pose proof (shifted_eval O var d args ts Hr Hc []) as Hs. exact Hs.
Qed.

(** The overloaded operators [+ - * /], with an expression or a number on either side, and [neg]. *)
Theorem C12_overloads : forall (T : Type) D nf known id (a b : expr T) ta tb,
  2 <= D -> known 2 id = true ->
  represents a ta -> tree_ok D nf (List.length (consts a)) known ta ->
  represents b tb -> tree_ok D nf (List.length (consts b)) known tb ->
  List.length (consts a) + List.length (consts b) <= u16_max ->
  (forall v : T,
    (exists e t, binop D id a b = Ok e /\ represents e t /\ tree_ok D nf (List.length (consts e)) known t
      /\ forall O var d, teval O var (fun i => nth i (consts e) d) t
         = oeval O 2 id [teval O var (fun i => nth i (consts a) d) ta; teval O var (fun i => nth i (consts b) d) tb])
    /\ (List.length (consts a) < u16_max -> exists e t, binop_scalar D id a v = Ok e /\ represents e t /\ tree_ok D nf (List.length (consts e)) known t
      /\ forall O var d, teval O var (fun i => nth i (consts e) d) t
         = oeval O 2 id [teval O var (fun i => nth i (consts a) d) ta; v])
    /\ (List.length (consts b) < u16_max -> exists e t, lit_binop D id v b = Ok e /\ represents e t /\ tree_ok D nf (List.length (consts e)) known t
      /\ forall O var d, teval O var (fun i => nth i (consts e) d) t
         = oeval O 2 id [v; teval O var (fun i => nth i (consts b) d) tb])).
Proof.
  intros T D nf known id a b ta tb HD Hk Ha Hta Hb Htb Hl v.
  assert (Hin : forall (e : expr T) t, represents e t -> tree_ok D nf (List.length (consts e)) known t -> forall i, In (Const i) (nodes e) -> i < List.length (consts e)).
  { clear. intros e t He Ht i Hi. apply const_ids_in in Hi.
    unfold represents in He. rewrite He in Hi. eapply tree_ok_ids; eauto. }
  assert (G : forall (a b : expr T) ta tb, represents a ta -> tree_ok D nf (List.length (consts a)) known ta ->
    represents b tb -> tree_ok D nf (List.length (consts b)) known tb ->
    List.length (consts a) + List.length (consts b) <= u16_max ->
    exists e t, binop D id a b = Ok e /\ represents e t /\ tree_ok D nf (List.length (consts e)) known t
      /\ forall O var d, teval O var (fun i => nth i (consts e) d) t
         = oeval O 2 id [teval O var (fun i => nth i (consts a) d) ta; teval O var (fun i => nth i (consts b) d) tb]).
  { clear - HD Hk Hin. intros a b ta tb Ha Hta Hb Htb Hl.
    destruct (C12_apply_operator T D nf known id [a; b] [ta; tb]) as [Hex Hall]; auto; [discriminate|].
    destruct (proj2 Hex) as [e He].
    { split; [exact HD|]. intros l e r E. destruct l as [|x [|y [|z l]]]; cbn in E; try discriminate.
      - injection E as <- _. cbn. split; [lia|]. intros i Hi. apply (Hin a ta) in Hi; auto. lia.
      - injection E as <- <- _. cbn. rewrite app_nil_r. split; [lia|]. intros i Hi. apply (Hin b tb) in Hi; auto. lia. }
    destruct (Hall e He) as (t & H1 & H2 & _ & _ & H3). exists e, t. repeat split; auto. }
  split; [apply G; auto|]. split.
  - intros Hlt. destruct (G a (const_expr v) ta (TConst 0)) as (e & t & H1 & H2 & H3 & H4); auto; try reflexivity; try (cbn; lia).
    exists e, t. repeat split; auto.
  - intros Hlt. destruct (G (const_expr v) b (TConst 0) tb) as (e & t & H1 & H2 & H3 & H4); auto; try reflexivity; try (cbn; lia).
    exists e, t. repeat split; auto.
Qed.

Example C12_case :
  let a := mkExpr [Var 0; Const 0; Op 2 5] [3%Z] [] in
  let b := mkExpr [Const 1; Const 0; Op 2 7] [4%Z; 9%Z] ["x"%string] in
  binop 2 0 a b = Ok (mkExpr [Var 0; Const 0; Op 2 5; Const 2; Const 1; Op 2 7; Op 2 0] [3%Z; 4%Z; 9%Z] ["x"%string])
  /\ unop 2 22 a = Ok (mkExpr [Var 0; Const 0; Op 2 5; Op 1 22] [3%Z] [])
  /\ lit_binop 2 5 2%Z a = Ok (mkExpr [Const 0; Var 0; Const 1; Op 2 5; Op 2 5] [2%Z; 3%Z] []).
Proof. repeat split. Qed.

Print Assumptions C10_compress_constants.
Print Assumptions C10_compress_total_iff.
Print Assumptions C11_constants_round_trip.
Print Assumptions C11_any_reference.
Print Assumptions C12_apply_operator.
Print Assumptions C12_overloads.
