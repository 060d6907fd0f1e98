(** Any history of derivative evaluations leaves a context in a good state. *)
From Verif Require Import Base BaseLemmas Node Tree NodeProofs Compile CompileProofs Eval EvalProofs EvalTop
  Deriv DerivSpec Machine DerivProofs DerivTop.

Section Len.
  Context {T : Type} (F : FloatOps T) (O : OpSet T).

  Lemma unary_loop_len n x (f : T -> T) out : eval_unary_loop n x f = Ok out -> List.length out = n.
  Proof.
    unfold eval_unary_loop. destruct x as [xs|xc].
    - destruct (Nat.eqb_spec n (List.length xs)); [|discriminate]. intros H; injection H as <-. now rewrite map_length.
    - intros H; injection H as <-. apply fill_length.
  Qed.

  Lemma binary_loop_len n x y (f : T -> T -> T) out : eval_binary_loop n x y f = Ok out -> List.length out = n.
  Proof.
    unfold eval_binary_loop. destruct x as [xs|xc], y as [ys|yc]; intros Hl.
    - apply bind_ok in Hl as (z & _ & Hl). destruct (Nat.eqb_spec n (List.length z)); [|discriminate].
      injection Hl as <-. now rewrite map_length.
    - destruct (Nat.eqb_spec n (List.length xs)); [|discriminate]. injection Hl as <-. now rewrite map_length.
    - destruct (Nat.eqb_spec n (List.length ys)); [|discriminate]. injection Hl as <-. now rewrite map_length.
    - injection Hl as <-. apply fill_length.
  Qed.

  Lemma grad_unary_len n x dx p out : grad_unary_loop F n x dx p = Ok out -> List.length out = n.
  Proof.
    unfold grad_unary_loop. destruct (match dx with RConst _ => _ | RSlice _ => _ end).
    - intros H; injection H as <-. apply fill_length.
    - destruct x as [xs|xc], dx as [ds|dc]; try discriminate.
      + destruct (Nat.eqb_spec n (List.length xs)), (Nat.eqb_spec n (List.length ds)); try discriminate.
        intros H; injection H as <-. rewrite map_length, combine_length. lia.
      + destruct (Nat.eqb_spec n (List.length xs)); try discriminate.
        intros H; injection H as <-. now rewrite map_length.
      + intros H; injection H as <-. apply fill_length.
  Qed.

  Lemma grad_binary_len n x y dx dy p out : grad_binary_loop F n x y dx dy p = Ok out -> List.length out = n.
  Proof.
    unfold grad_binary_loop. destruct x, y, dx, dy; try discriminate; intros H;
      repeat match goal with
        | H : bind _ _ = Ok _ |- _ => apply bind_ok in H as (? & _ & H)
        | H : (if n =? ?k then _ else _) = Ok _ |- _ => destruct (Nat.eqb_spec n k); [|discriminate]
        end; injection H as <-; rewrite ?map_length, ?fill_length; auto.
  Qed.

  Lemma diff_rows_len (f : list T -> T) p views dviews o : forall k row av ad complete v d c,
    diff_rows_loop F f p views dviews o row k av ad complete = Ok (Some (v, d, c)) ->
    List.length v = List.length av + k /\ List.length d = List.length ad + k.
  Proof.
    induction k as [|k IH]; cbn [diff_rows_loop]; intros row av ad complete v d c H.
    - injection H as <- <- _. lia.
    - apply bind_ok in H as (vals & _ & H). apply bind_ok in H as (dvals & _ & H).
      destruct (maybe_mark_nonfinite F (f vals) o complete) as [go c'].
      destruct go; [|discriminate]. cbn [negb] in H.
      destruct (maybe_mark_nonfinite F (dot_partials F p vals dvals) o c') as [go2 c2].
      destruct go2; [|discriminate]. cbn [negb] in H.
      apply IH in H. rewrite !app_length in H. cbn in H. lia.
  Qed.

  Lemma diff_nary_len A (f : list T -> T) p n args dargs o ov od ok :
    diff_nary F A f p n args dargs o = Ok (ov, od, ok) -> List.length ov = n /\ List.length od = n.
  Proof.
    unfold diff_nary. intros H. apply bind_ok in H as (_ & _ & H). apply bind_ok in H as (_ & _ & H).
    assert (Hf : forall a b c, List.length a = n -> List.length b = n -> finish_diff F o a b c = (ov, od, ok) ->
                 List.length ov = n /\ List.length od = n).
    { intros a b c Ha Hb. unfold finish_diff. destruct (check_finite o); [destruct (_ && _)|]; intros E; injection E as <- <- <-;
        rewrite ?fill_length; auto. }
    destruct (A =? 1); [|destruct (A =? 2)].
    - apply bind_ok in H as (x & _ & H). apply bind_ok in H as (dx & _ & H).
      apply bind_ok in H as (a & Ha & H). apply bind_ok in H as (b & Hb & H). injection H as H.
      eapply Hf; eauto. eapply unary_loop_len; eauto. eapply grad_unary_len; eauto.
    - apply bind_ok in H as (x & _ & H). apply bind_ok in H as (y & _ & H). apply bind_ok in H as (dx & _ & H).
      apply bind_ok in H as (dy & _ & H).
      apply bind_ok in H as (a & Ha & H). apply bind_ok in H as (b & Hb & H). injection H as H.
      eapply Hf; eauto. eapply binary_loop_len; eauto. eapply grad_binary_len; eauto.
    - apply bind_ok in H as (r & Hr & H). destruct r as [[[a b] c]|].
      + apply diff_rows_len in Hr. cbn in Hr. injection H as H. eapply Hf; eauto; tauto.
      + injection H as <- <- _. rewrite !fill_length. auto.
  Qed.

  Lemma mapM_forall {A B} (f : A -> res B) (P : B -> Prop) l out :
    (forall a b, f a = Ok b -> P b) -> mapM f l = Ok out -> Forall P out.
  Proof.
    intros HP. revert out. induction l as [|a l IH]; cbn; intros out H.
    - injection H as <-. constructor.
    - apply bind_ok in H as (b & Hb & H). apply bind_ok in H as (bs & Hbs & H). injection H as <-.
      constructor; eauto.
  Qed.

  Lemma concat_len n (ls : list (list T)) : Forall (fun l => List.length l = n) ls ->
    List.length (List.concat ls) = List.length ls * n.
  Proof. induction 1; cbn; auto. rewrite app_length. lia. Qed.

  Lemma grad_nary_len A (f : list T -> T) p nd n args grads o ov og ok :
    grad_nary F A f p nd n args grads o = Ok (ov, og, ok) -> List.length ov = n /\ List.length og = nd * n.
  Proof.
    unfold grad_nary. intros H. apply bind_ok in H as (_ & _ & H). apply bind_ok in H as (_ & _ & H).
    apply bind_ok in H as ([v g] & Hb & H).
    assert (HG : List.length v = n /\ List.length (List.concat g) = nd * n).
    { destruct (A =? 1); [|destruct (A =? 2)].
      - apply bind_ok in Hb as (x & _ & Hb). apply bind_ok in Hb as (dx & _ & Hb).
        apply bind_ok in Hb as (a & Ha & Hb). apply bind_ok in Hb as (b & Hg & Hb). injection Hb as <- <-.
        split; [eapply unary_loop_len; eauto|].
        unfold grad_dirs_unary in Hg. rewrite (concat_len n), (mapM_ok_length _ _ _ Hg), seq_length; auto.
        eapply mapM_forall; [|exact Hg]. cbn. intros d l E. apply bind_ok in E as (? & _ & E). eapply grad_unary_len; eauto.
      - apply bind_ok in Hb as (x & _ & Hb). apply bind_ok in Hb as (y & _ & Hb). apply bind_ok in Hb as (dx & _ & Hb).
        apply bind_ok in Hb as (dy & _ & Hb).
        apply bind_ok in Hb as (a & Ha & Hb). apply bind_ok in Hb as (b & Hg & Hb). injection Hb as <- <-.
        split; [eapply binary_loop_len; eauto|].
        unfold grad_dirs_binary in Hg. rewrite (concat_len n), (mapM_ok_length _ _ _ Hg), seq_length; auto.
        eapply mapM_forall; [|exact Hg]. cbn. intros d l E. apply bind_ok in E as (? & _ & E). apply bind_ok in E as (? & _ & E).
        match type of E with (if ?b then _ else _) = _ => destruct b end.
        + injection E as <-. apply fill_length.
        + eapply grad_binary_len; eauto.
      - apply bind_ok in Hb as (a & Ha & Hb). apply bind_ok in Hb as (b & Hg & Hb). injection Hb as <- <-.
        split; [unfold grad_vals_loop in Ha; apply mapM_ok_length in Ha; now rewrite seq_length in Ha|].
        unfold grad_dirs_nary in Hg. apply bind_ok in Hg as (_ & _ & Hg).
        rewrite (concat_len n), (mapM_ok_length _ _ _ Hg), seq_length; auto.
        eapply mapM_forall; [|exact Hg]. cbn. intros d l E. apply mapM_ok_length in E. now rewrite seq_length in E. }
    destruct (check_finite o); [destruct (_ && _)|]; injection H as <- <- <-; rewrite ?fill_length; auto.
  Qed.

  Lemma diff_instr_len x n cs dir o m i m' ok :
    diff_instr F O x n cs dir o m i = Ok (m', ok) ->
    List.length (fst m') = List.length (fst m) /\ List.length (snd m') = List.length (snd m).
  Proof.
    destruct m as [vs ds]. unfold diff_instr, split_at. intros H.
    destruct (Nat.leb_spec (i_dst i * n) (List.length vs)); [|discriminate]. cbn [bind] in H.
    destruct (Nat.leb_spec n (List.length (skipn (i_dst i * n) vs))); [|discriminate]. cbn [bind] in H.
    destruct (Nat.leb_spec (i_dst i * n) (List.length ds)); [|discriminate]. cbn [bind] in H.
    destruct (Nat.leb_spec n (List.length (skipn (i_dst i * n) ds))); [|discriminate]. cbn [bind] in H.
    apply bind_ok in H as (av & _ & H). apply bind_ok in H as (dv & _ & H). apply bind_ok in H as (_ & _ & H).
    apply bind_ok in H as ([[ov od] ok'] & Ho & H). injection H as <- <-. cbn [fst snd].
    apply diff_nary_len in Ho as [Ho1 Ho2]. rewrite firstn_length in Ho1, Ho2.
    rewrite !app_length, Ho1, Ho2, !firstn_length, !skipn_length in *. lia.
  Qed.

  Lemma grad_instr_len x n nd cs var o m i m' ok :
    grad_instr F O x n nd cs var o m i = Ok (m', ok) ->
    List.length (fst m') = List.length (fst m) /\ List.length (snd m') = List.length (snd m).
  Proof.
    destruct m as [vs ds]. unfold grad_instr, split_at. intros H.
    destruct (Nat.leb_spec (i_dst i * n) (List.length vs)); [|discriminate]. cbn [bind] in H.
    destruct (Nat.leb_spec n (List.length (skipn (i_dst i * n) vs))); [|discriminate]. cbn [bind] in H.
    destruct (Nat.leb_spec (i_dst i * (n * nd)) (List.length ds)); [|discriminate]. cbn [bind] in H.
    destruct (Nat.leb_spec (n * nd) (List.length (skipn (i_dst i * (n * nd)) ds))); [|discriminate]. cbn [bind] in H.
    apply bind_ok in H as (av & _ & H). apply bind_ok in H as (dv & _ & H). apply bind_ok in H as (_ & _ & H).
    apply bind_ok in H as ([[ov od] ok'] & Ho & H). injection H as <- <-. cbn [fst snd].
    apply grad_nary_len in Ho as [Ho1 Ho2].
    rewrite !app_length, Ho1, Ho2, !firstn_length, !skipn_length in *. lia.
  Qed.

  Lemma run_len (step : list T * list T -> instr -> res ((list T * list T) * bool)) early :
    (forall m i m' ok, step m i = Ok (m', ok) ->
       List.length (fst m') = List.length (fst m) /\ List.length (snd m') = List.length (snd m)) ->
    forall is m c m' st, run_instrs step early is m c = Ok (m', st) ->
       List.length (fst m') = List.length (fst m) /\ List.length (snd m') = List.length (snd m).
  Proof.
    intros Hs. induction is as [|i is IH]; cbn [run_instrs]; intros m c m' st H.
    - injection H as <- _. auto.
    - apply bind_ok in H as ([m1 ok] & H1 & H). apply Hs in H1.
      destruct (early && negb ok).
      + injection H as <- _. auto.
      + apply IH in H. lia.
  Qed.
End Len.

Section Reach.
  Context {T : Type} (F : FloatOps T) (O : OpSet T) (hash : list pnode -> N) (D : nat).
  Notation Inv := (@DctxInv T hash D).

  Lemma dsetup_inv (Seen : list pnode -> Prop) c e nf w c1 p : Inv Seen c -> Seen (nodes e) -> dsetup F hash D c e nf w = Ok (c1, p) -> Inv Seen c1.
  Proof.
    intros Hi Hse H. unfold dsetup in H. apply bind_ok in H as (c0 & Hc & H). apply bind_ok in H as (p0 & _ & H).
    injection H as <- <-. apply densure_inv.
    match type of Hc with (if ?b then _ else _) = _ => destruct b end; [|injection Hc as <-; auto].
    apply bind_ok in Hc as (q & Hq & Hc). injection Hc as <-. destruct Hi as [H1 H2 H3]. split; cbn; auto.
    exists (nodes e). auto.
  Qed.

  Lemma dctx_with_inv Seen c v d : Inv Seen c -> List.length v = List.length (m_data (d_val c)) ->
    List.length d = List.length (m_data (d_der c)) -> Inv Seen (dctx_with c v d).
  Proof. intros [H1 H2 H3] Hv Hd. split; cbn; auto; unfold mat_ok in *; cbn; congruence. Qed.

  (** Histories of [DiffContext] and [GradContext] with formulas from [Seen], their public [n_rows] set freely in between. *)
  Inductive diff_reach (Seen : list pnode -> Prop) : dctx T -> Prop :=
  | dreach_new n : diff_reach Seen (dctx_new F n)
  | dreach_eval c e X dir o c' r :
      diff_reach Seen c -> Seen (nodes e) -> eval_diff_tree_array F O hash D e X dir c o = Ok (c', r) -> diff_reach Seen c'
  | dreach_rows c n : diff_reach Seen c ->
      diff_reach Seen (mkDctx (d_val c) (d_der c) n (d_plan c) (d_nodes_len c) (d_n_consts c) (d_n_features c)).

  Inductive grad_reach (Seen : list pnode -> Prop) : dctx T -> Prop :=
  | greach_new n : grad_reach Seen (dctx_new F n)
  | greach_eval c e X var o c' r :
      grad_reach Seen c -> Seen (nodes e) -> eval_grad_tree_array F O hash D e X var c o = Ok (c', r) -> grad_reach Seen c'
  | greach_rows c n : grad_reach Seen c ->
      grad_reach Seen (mkDctx (d_val c) (d_der c) n (d_plan c) (d_nodes_len c) (d_n_consts c) (d_n_features c)).

  Lemma diff_reach_inv Seen c : diff_reach Seen c -> Inv Seen c.
  Proof.
    induction 1 as [n|c e X dir o c' r _ IH Hse H|c n _ IH].
    - apply dctx_new_inv.
    - unfold eval_diff_tree_array in H. apply bind_ok in H as (_ & _ & H). apply bind_ok in H as (_ & _ & H).
      apply bind_ok in H as ([c1 p] & Hs & H). apply bind_ok in H as ([m st] & Hr & H).
      apply (dsetup_inv Seen) in Hs; auto. apply run_len in Hr; [|intros; eapply diff_instr_len; eauto]. cbn [fst snd] in Hr.
      assert (Hi : Inv Seen (dctx_with c1 (fst m) (snd m))) by (apply (dctx_with_inv Seen); tauto).
      destruct st as [cpl|]; [|injection H as <- _; auto].
      destruct (p_root p); repeat (apply bind_ok in H as (? & _ & H));
        repeat (match type of H with (if ?b then _ else _) = _ => destruct b end); injection H as <- _; exact Hi.
    - destruct IH as [H1 H2 H3]. split; cbn; auto.
  Qed.

  Lemma grad_reach_inv Seen c : grad_reach Seen c -> Inv Seen c.
  Proof.
    induction 1 as [n|c e X dir o c' r _ IH Hse H|c n _ IH].
    - apply dctx_new_inv.
    - unfold eval_grad_tree_array in H. apply bind_ok in H as (_ & _ & H).
      apply bind_ok in H as ([c1 p] & Hs & H). apply bind_ok in H as ([m st] & Hr & H).
      apply (dsetup_inv Seen) in Hs; auto. apply run_len in Hr; [|intros; eapply grad_instr_len; eauto]. cbn [fst snd] in Hr.
      assert (Hi : Inv Seen (dctx_with c1 (fst m) (snd m))) by (apply (dctx_with_inv Seen); tauto).
      destruct st as [cpl|]; [|injection H as <- _; auto].
      destruct (p_root p).
      + apply bind_ok in H as (? & _ & H). apply bind_ok in H as (? & _ & H). injection H as <- _; exact Hi.
      + apply bind_ok in H as (? & _ & H). apply bind_ok in H as (? & _ & H). injection H as <- _; exact Hi.
      + apply bind_ok in H as (? & _ & H). match type of H with (if ?b then _ else _) = _ => destruct b end.
        * injection H as <- _; exact Hi.
        * apply bind_ok in H as (? & _ & H). injection H as <- _; exact Hi.
    - destruct IH as [H1 H2 H3]. split; cbn; auto.
  Qed.

  (** ** Without any assumption on the hash *)

  (** The same constants under other nodes. *)
  Definition swap (e : expr T) (ns : list pnode) : expr T := mkExpr ns (consts e) (var_names e).

  Lemma DctxInv_mono (S1 S2 : list pnode -> Prop) c : (forall ns, S1 ns -> S2 ns) -> Inv S1 c -> Inv S2 c.
  Proof. intros H [H1 H2 H3]. split; auto. destruct (d_plan c); auto. destruct H1 as (ns & Hn & Hc). eauto. Qed.

  Lemma compile_bounds ns nf nc p : compile_plan hash D ns nf nc = Ok p ->
    forall n, In n ns -> match n with Var f => f < nf | Const i => i < nc | Op a _ => 1 <= a <= D end.
  Proof.
    unfold compile_plan. intros H. apply bind_ok in H as (_ & _ & H). apply bind_ok in H as (_ & _ & H). apply bind_ok in H as (c & H & _).
    revert H. generalize cinit. induction ns as [|n ns IH]; intros c0 H m Hm; [destruct Hm|].
    cbn [foldM] in H. apply bind_ok in H as (c1 & H1 & H). destruct Hm as [<-|Hm]; [|eapply IH; eauto].
    unfold compile_step in H1. destruct n as [f|i|a o]; apply bind_ok in H1 as (u & H1 & _); unfold assert_ in H1.
    - destruct (Nat.ltb_spec f nf); [auto|discriminate].
    - destruct (Nat.ltb_spec i nc); [auto|discriminate].
    - destruct (Nat.leb_spec 1 a); [|discriminate]. destruct (Nat.leb_spec a D); [auto|discriminate].
  Qed.

  Lemma tree_ok_nodes nf nc known t :
    (forall n, In n (flatten t) -> match n with Var f => f < nf | Const i => i < nc | Op a op => 1 <= a <= D /\ known a op = true end) ->
    tree_ok D nf nc known t.
  Proof.
    induction t as [f|i|op cs IH] using tree_ind'; intros H; cbn [flatten tree_ok] in *.
    - exact (H (Var f) (or_introl eq_refl)).
    - exact (H (Const i) (or_introl eq_refl)).
    - destruct (H (Op (List.length cs) op)) as [H1 H2]; [apply in_or_app; right; left; reflexivity|]. split; auto. split; auto.
      apply fold_right_and_Forall. apply Forall_forall. intros c Hc. rewrite Forall_forall in IH. apply IH; auto.
      intros n Hn. apply H. apply in_or_app. left. apply in_flat_map. eauto.
  Qed.

  (** A formula over known operators, with at most 65535 of them. *)
  Definition sane (ns : list pnode) : Prop :=
    exists t, ns = flatten t /\ (forall a op, In (Op a op) ns -> oknown O a op = true) /\ ops_in t <= u16_max.

  (** The gradient of [e] in a context that has seen [Seen]: that of [e], or else - if the hash confuses [e] with a formula of [Seen] - that of the other
      formula with the constants of [e]. In neither case a panic. *)
  Lemma eval_grad_any (Seen : list pnode -> Prop) e X t o c variable :
    ok_tree O D e X t -> mat_ok X -> fits_u16 e X t -> Inv Seen c -> Seen (nodes e) -> (forall ns, Seen ns -> sane ns) ->
    d_rows c = m_ncols X -> 1 <= m_ncols X ->
    exists c' ns0 t0, eval_grad_tree_array F O hash D e X variable c o = Ok (c', expected_grad F O (swap e ns0) X variable t0 o)
      /\ ok_tree O D (swap e ns0) X t0
      /\ (ns0 = nodes e \/ (Seen ns0 /\ hash ns0 = hash (nodes e) /\ List.length ns0 = List.length (nodes e)))
      /\ Inv Seen c' /\ d_rows c' = d_rows c.
  Proof.
    intros Hok HX Hf Hinv Hse Hsane Hrows Hn.
    set (stale := negb (d_nodes_len c =? List.length (nodes e)) || negb (d_n_consts c =? List.length (consts e))
      || negb (d_n_features c =? m_nrows X) || match d_plan c with None => true | Some p => negb (p_hash p =? hash (nodes e))%N end).
    destruct stale eqn:Es.
    - set (c0 := mkDctx (d_val c) (d_der c) (d_rows c) None (d_nodes_len c) (d_n_consts c) (d_n_features c)).
      assert (Heq : eval_grad_tree_array F O hash D e X variable c o = eval_grad_tree_array F O hash D e X variable c0 o).
      { unfold eval_grad_tree_array. assert (Hd : forall w, dsetup F hash D c e (m_nrows X) w = dsetup F hash D c0 e (m_nrows X) w).
        { intros w. unfold dsetup. fold stale. rewrite Es. subst c0. cbn [d_nodes_len d_n_consts d_n_features d_plan d_val d_der d_rows].
          rewrite !orb_true_r. reflexivity. }
        rewrite Hd. reflexivity. }
      destruct (eval_grad_spec F O hash D (eq (nodes e)) e X t o c0 variable Hok HX Hf) as (c' & E & Hi & Hr); auto.
      { destruct Hinv as [H1 H2 H3]. split; cbn; auto. }
      { intros ns' <- _ _. reflexivity. }
      exists c', (nodes e), t. rewrite Heq. assert (Hsw : swap e (nodes e) = e) by (destruct e; reflexivity). rewrite Hsw.
      split; auto. split; auto. split; auto. split; auto. eapply DctxInv_mono; [|exact Hi]. intros ns <-. exact Hse.
    - unfold stale in Es. pose proof Hinv as [Hp Hv Hdv].
      destruct (d_plan c) as [p|] eqn:Ep; [|rewrite !orb_true_r in Es; discriminate].
      destruct (Nat.eqb_spec (d_nodes_len c) (List.length (nodes e))) as [E1|]; try discriminate.
      destruct (Nat.eqb_spec (d_n_consts c) (List.length (consts e))) as [E2|]; try discriminate.
      destruct (Nat.eqb_spec (d_n_features c) (m_nrows X)) as [E3|]; try discriminate.
      cbn in Es. apply negb_false_iff, N.eqb_eq in Es.
      destruct Hp as (ns & Hns & Hcp & Hlen). pose proof (compile_plan_hash _ _ _ _ _ _ Hcp) as Hh.
      destruct (Hsane ns Hns) as (t0 & Ht0 & Hkn & Hops).
      assert (Heq : eval_grad_tree_array F O hash D e X variable c o = eval_grad_tree_array F O hash D (swap e ns) X variable c o).
      { unfold eval_grad_tree_array. assert (Hd : forall w, dsetup F hash D c e (m_nrows X) w = dsetup F hash D c (swap e ns) (m_nrows X) w).
        { intros w. unfold dsetup. rewrite Ep. cbn [swap nodes consts].
          rewrite E1, E2, E3, <- Hlen, E1, !Nat.eqb_refl, Es, <- Hh, Es, N.eqb_refl. reflexivity. }
        rewrite Hd. reflexivity. }
      assert (Hok0 : ok_tree O D (swap e ns) X t0).
      { split; [exact Ht0|]. cbn [swap consts]. apply tree_ok_nodes. intros n Hin. rewrite <- Ht0 in Hin.
        pose proof (compile_bounds _ _ _ _ Hcp n Hin) as Hb. rewrite E2, E3 in Hb. destruct n; auto. }
      assert (Hf0 : fits_u16 (swap e ns) X t0) by (destruct Hf as (G1 & G2 & G3); split; [|split]; auto).
      destruct (eval_grad_spec F O hash D (eq ns) (swap e ns) X t0 o c variable Hok0 HX Hf0) as (c' & E & Hi & Hr); auto.
      { split; auto. rewrite Ep. exists ns. auto. }
      { intros ns' <- _ _. reflexivity. }
      exists c', ns, t0. rewrite Heq. split; auto. split; auto. split; [right; split; [auto|split; congruence]|]. split; auto.
      eapply DctxInv_mono; [|exact Hi]. intros ns' <-. exact Hns.
  Qed.
End Reach.
