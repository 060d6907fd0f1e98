(** Evaluation of whole expressions and reuse of contexts. *)
From Verif Require Import Base BaseLemmas Node Tree NodeProofs Compile CompileProofs Eval EvalProofs.

(** Specification vocabulary: entry of feature [f] at row [r] of a data matrix, and constant [i]. *)
Definition mat_ok {T} (X : matrix T) : Prop := List.length (m_data X) = m_nrows X * m_ncols X.
Definition mat_at {T} (F : FloatOps T) (X : matrix T) (r f : nat) : T :=
  nth (f * m_ncols X + r) (m_data X) (fnan F).
Definition const_at {T} (F : FloatOps T) (e : expr T) (i : nat) : T := nth i (consts e) (fnan F).

(** Value of tree [t] at row [r]. *)
Definition value_at {T} (F : FloatOps T) (O : OpSet T) (e : expr T) (X : matrix T) (t : tree) (r : nat) : T :=
  teval O (mat_at F X r) (const_at F e) t.

(** Every operator application in [t] is finite at row [r]. *)
Definition finite_at {T} (F : FloatOps T) (O : OpSet T) (e : expr T) (X : matrix T) (t : tree) (r : nat) : bool :=
  tfinite F O (mat_at F X r) (const_at F e) t.

(** The expression fits the 16-bit indices of the compiler. *)
Definition fits_u16 {T} (e : expr T) (X : matrix T) (t : tree) : Prop :=
  m_nrows X <= u16_max /\ List.length (consts e) <= u16_max /\ ops_in t <= u16_max.

Section Top.
  Context {T : Type} (F : FloatOps T) (O : OpSet T) (hash : list pnode -> N) (D : nat).

  Definition ok_tree (e : expr T) (X : matrix T) (t : tree) : Prop :=
    represents e t /\ tree_ok D (m_nrows X) (List.length (consts e)) (oknown O) t.

  (** Flag before the root is looked at, and the whole flag. *)
  Definition body_fin (e : expr T) (X : matrix T) (t : tree) : bool :=
    colfin F O (m_data X) (m_ncols X) (consts e) t.
  Definition root_fin (e : expr T) (t : tree) : bool :=
    match t with TConst i => ffinite F (const_at F e i) | _ => true end.
  Definition all_fin (e : expr T) (X : matrix T) (t : tree) : bool := body_fin e X t && root_fin e t.

  (** What any evaluation of [t] must return, given the caller's [out]. *)
  Definition expected (out : list T) (e : expr T) (X : matrix T) (t : tree) (o : eopts) : list T * bool :=
    if kstop o (all_fin e X t) then (out, false)
    else (tab (m_ncols X) (value_at F O e X t), kflag o (all_fin e X t)).

  Lemma colfin_leaf e X t : (forall op ts, t <> TOp op ts) -> body_fin e X t = true.
  Proof. destruct t as [f|i|op ts]; intros H; try reflexivity. congruence. Qed.

  Lemma eval_plan_spec out e X t o is s h scratch :
    ok_tree e X t -> mat_ok X -> List.length out = m_ncols X ->
    codes (need t) [] t is s ->
    (m_nrows scratch = need t -> m_ncols scratch = m_ncols X -> mat_ok scratch) ->
    exists scratch',
      eval_plan_array_into F O out (mkPlan is (need t) s h) e X scratch o
      = Ok (scratch', fst (expected out e X t o), snd (expected out e X t o))
      /\ m_nrows scratch' = need t /\ m_ncols scratch' = m_ncols X /\ mat_ok scratch'.
  Proof.
    intros [Hr Hok] HX Ho HC Hs. unfold eval_plan_array_into. rewrite Ho, Nat.eqb_refl. cbn [assert_ bind].
    cbn [p_slots p_instrs p_root].
    set (sc := if _ || _ then _ else _).
    assert (Hsc : m_nrows sc = need t /\ m_ncols sc = m_ncols X /\ List.length (m_data sc) = need t * m_ncols X).
    { subst sc. destruct (Nat.eqb_spec (m_nrows scratch) (need t)) as [E1|E1];
        [destruct (Nat.eqb_spec (m_ncols scratch) (m_ncols X)) as [E2|E2]|]; cbn [negb orb].
      - repeat split; auto. unfold mat_ok in Hs. rewrite Hs, E1, E2; auto.
      - cbn. repeat split; auto. apply fill_length.
      - cbn. repeat split; auto. apply fill_length. }
    destruct Hsc as (Hsr & Hscn & Hsl). clearbody sc. clear Hs scratch.
    pose proof (proj1 (exec_codes F O (m_data X) (m_ncols X) (m_nrows X) (consts e) o HX D (need t)) _ _ _ _ HC Hok) as HE.
    destruct (HE (fun k (H : In k []) => match H with end) (m_data sc) true Hsl) as (sc' & Hl' & E & P).
    rewrite E. cbn [bind]. unfold expected, all_fin. rewrite kstop_and. fold (body_fin e X t) in *.
    destruct (kstop o (body_fin e X t)) eqn:Ek; cbn [orb].
    - eexists; split; [reflexivity|]. repeat split; auto. unfold mat_ok. cbn. rewrite Hsr, Hscn; auto.
    - destruct (P eq_refl) as [HR _].
      assert (Hfin : exists sc2, sc2 = mkMat sc' (m_nrows sc) (m_ncols sc) /\ m_nrows sc2 = need t /\ m_ncols sc2 = m_ncols X /\ mat_ok sc2).
      { eexists; split; [reflexivity|]. cbn. unfold mat_ok; cbn. rewrite Hsr, Hscn. auto. }
      destruct Hfin as (sc2 & E2 & Hsc2). rewrite <- E2.
      destruct s as [k|f|i]; cbn in HR.
      + destruct HR as ((op & ts & ->) & HR). inversion HC; subst.
        rewrite slice_ok by (rewrite Hl'; nia). cbn [bind].
        fold (chunk (m_ncols X) k sc'). rewrite HR. cbn [root_fin] in *.
        assert (kstop o true = false) as -> by (unfold kstop; now rewrite andb_false_r).
        rewrite andb_true_r. cbn [fst snd andb]. eexists; split; [reflexivity|]. auto.
      + subst t. cbn [tree_ok] in Hok. rewrite slice_ok by (rewrite HX; nia). cbn [bind root_fin].
        assert (kstop o true = false) as -> by (unfold kstop; now rewrite andb_false_r).
        rewrite andb_true_r. cbn [fst snd andb]. eexists; split; [|exact Hsc2]. do 2 f_equal. f_equal.
        apply nth_error_ext. intros j. destruct (Nat.lt_ge_cases j (m_ncols X)).
        * rewrite nth_error_firstn, nth_error_skipn, tab_nth by auto. unfold value_at. cbn. unfold mat_at.
          apply nth_error_nth'. rewrite HX. nia.
        * rewrite !(proj2 (nth_error_None _ _)); auto; [now rewrite tab_length|rewrite firstn_length; lia].
      + subst t. cbn [tree_ok] in Hok. unfold index. rewrite (nth_error_nth' (consts e) (fnan F)) by auto.
        cbn [expect bind root_fin]. fold (const_at F e i).
        rewrite (colfin_leaf e X (TConst i)) in * by congruence. cbn [andb].
        unfold kstop, kflag in *. unfold value_at. cbn [teval]. rewrite tab_const.
        destruct (check_finite o), (ffinite F (const_at F e i)), (early_exit o); cbn in *;
          (eexists; split; [reflexivity|exact Hsc2]).
  Qed.

  (** The part of a context that matters: its plan was compiled from a node list of [Seen] with the recorded
      length, constant count and feature count. *)
  Record CtxInv (Seen : list pnode -> Prop) (c : ectx T) : Prop := {
    xi_plan : match x_plan c with
              | None => True
              | Some p => exists ns, Seen ns /\ compile_plan hash D ns (x_n_features c) (x_n_consts c) = Ok p
                          /\ x_nodes_len c = List.length ns
              end;
    xi_scratch : match x_scratch c with None => True | Some s => mat_ok s end
  }.

  Lemma ctx_new_inv Seen n : CtxInv Seen (ctx_new n).
  Proof. split; exact I. Qed.

  (** No other formula of [Seen] with as many nodes has the hash of [ns]. *)
  Definition told_apart (Seen : list pnode -> Prop) (ns : list pnode) : Prop :=
    forall ns', Seen ns' -> hash ns' = hash ns -> List.length ns' = List.length ns -> ns' = ns.

  Lemma compile_plan_hash ns nf nc p : compile_plan hash D ns nf nc = Ok p -> p_hash p = hash ns.
  Proof.
    unfold compile_plan. intros H. apply bind_ok in H as (? & _ & H). apply bind_ok in H as (? & _ & H).
    apply bind_ok in H as (c & _ & H). destruct (c_stack c) as [|s [|]]; try discriminate.
    injection H as <-. reflexivity.
  Qed.

  Lemma eval_into_spec (Seen : list pnode -> Prop) out e X t o c :
    ok_tree e X t -> mat_ok X -> fits_u16 e X t -> CtxInv Seen c -> Seen (nodes e) -> told_apart Seen (nodes e) ->
    List.length out = m_ncols X -> x_rows c = m_ncols X ->
    exists c', eval_tree_array_into F O hash D out e X c o
               = Ok (c', fst (expected out e X t o), snd (expected out e X t o))
      /\ CtxInv Seen c' /\ x_rows c' = x_rows c.
  Proof.
    intros Hok HX (Hf1 & Hf2 & Hf3) Hinv Hseen Hcol Ho Hrows.
    unfold eval_tree_array_into. rewrite Ho, Hrows, Nat.eqb_refl. cbn [assert_ bind].
    pose proof (proj1 Hok) as Hrep. unfold represents in Hrep.
    assert (Hneed : need t <= u16_max) by (pose proof (need_le_ops t); lia).
    destruct (compile_plan_spec D _ _ _ hash t (proj2 Hok) Hf1 Hf2 Hneed) as (is & s & Ecp & HC).
    assert (Hsetup : exists c1, ctx_setup F hash D c e (m_nrows X) = Ok c1
        /\ x_plan c1 = Some (mkPlan is (need t) s (hash (flatten t)))
        /\ (exists sc, x_scratch c1 = Some sc /\ mat_ok sc)
        /\ CtxInv Seen c1 /\ x_rows c1 = x_rows c).
    { unfold ctx_setup.
      assert (Hc0 : exists c0, (if needs_recompile hash c e (m_nrows X)
          then let! p := compile_plan hash D (nodes e) (m_nrows X) (List.length (consts e)) in
               Ok (mkCtx (x_scratch c) (x_rows c) (Some p) (List.length (nodes e)) (List.length (consts e)) (m_nrows X))
          else Ok c) = Ok c0
          /\ x_plan c0 = Some (mkPlan is (need t) s (hash (flatten t))) /\ CtxInv Seen c0 /\ x_rows c0 = x_rows c).
      { destruct (needs_recompile hash c e (m_nrows X)) eqn:En.
        - rewrite Hrep, Ecp. cbn [bind]. eexists; split; [reflexivity|]. cbn. repeat split; auto.
          + cbn. exists (flatten t). rewrite Ecp, <- Hrep. auto.
          + apply Hinv.
        - exists c. split; auto. unfold needs_recompile in En. pose proof Hinv as [Hp Hs].
          destruct (x_plan c) as [p|]; try discriminate.
          destruct (Nat.eqb_spec (x_nodes_len c) (List.length (nodes e))) as [E1|]; try discriminate.
          destruct (Nat.eqb_spec (x_n_consts c) (List.length (consts e))) as [E2|]; try discriminate.
          destruct (Nat.eqb_spec (x_n_features c) (m_nrows X)) as [E3|]; try discriminate.
          cbn in En. apply negb_false_iff, N.eqb_eq in En.
          destruct Hp as (ns & Hns & Hcp & Hlen).
          pose proof (compile_plan_hash _ _ _ _ Hcp) as Hh.
          assert (ns = nodes e) by (apply Hcol; congruence). subst ns.
          rewrite E2, E3, Hrep, Ecp in Hcp. split; [congruence|]. split; auto. }
      destruct Hc0 as (c0 & -> & Hp0 & Hi0 & Hr0). cbn [bind]. rewrite Hp0. cbn [expect bind p_slots].
      eexists; split; [reflexivity|]. unfold ensure_scratch.
      destruct (x_scratch c0) as [sc|] eqn:Esc.
      - destruct ((m_nrows sc =? need t) && (m_ncols sc =? x_rows c0)) eqn:Eb.
        + repeat split; auto; try apply Hi0. exists sc. split; auto. destruct Hi0 as [_ Hs0]. now rewrite Esc in Hs0.
        + cbn. repeat split; auto; cbn.
          * eexists; split; [reflexivity|]. unfold mat_ok; cbn. apply fill_length.
          * rewrite Hp0. destruct Hi0 as [Hpi _]. now rewrite Hp0 in Hpi.
          * unfold mat_ok; cbn. apply fill_length.
      - cbn. repeat split; auto; cbn.
        * eexists; split; [reflexivity|]. unfold mat_ok; cbn. apply fill_length.
        * rewrite Hp0. destruct Hi0 as [Hpi _]. now rewrite Hp0 in Hpi.
        * unfold mat_ok; cbn. apply fill_length. }
    destruct Hsetup as (c1 & -> & Hp1 & (sc & Hsc & Hsok) & Hi1 & Hr1). cbn [bind].
    rewrite Hp1, Hsc. cbn [expect bind].
    destruct (eval_plan_spec out e X t o is s (hash (flatten t)) sc Hok HX Ho HC) as (sc' & E & _ & _ & Hm); [auto|].
    rewrite E. cbn [bind]. eexists; split; [reflexivity|]. split; [|cbn; congruence].
    destruct Hi1 as [Hpi _]. rewrite Hp1 in Hpi. split; cbn; auto.
  Qed.

  Lemma eval_tree_array_spec e X t o :
    ok_tree e X t -> mat_ok X -> fits_u16 e X t ->
    eval_tree_array F O hash D e X o = Ok (expected (fill (m_ncols X) (fzero F)) e X t o).
  Proof.
    intros Hok HX Hf. unfold eval_tree_array.
    (* A fresh context never reuses a plan, so collisions are irrelevant. *)
    unfold eval_tree_array_into. rewrite fill_length, Nat.eqb_refl. cbn [assert_ bind ctx_new x_rows].
    rewrite Nat.eqb_refl. cbn [assert_ bind]. unfold ctx_setup. cbn [needs_recompile x_plan ctx_new].
    destruct Hf as (Hf1 & Hf2 & Hf3).
    assert (Hneed : need t <= u16_max) by (pose proof (need_le_ops t); lia).
    destruct (compile_plan_spec D _ _ _ hash t (proj2 Hok) Hf1 Hf2 Hneed) as (is & s & Ecp & HC).
    rewrite (proj1 Hok), Ecp. cbn [bind x_plan expect].
    unfold ensure_scratch. cbn [x_scratch ctx_new bind x_plan expect].
    destruct (eval_plan_spec (fill (m_ncols X) (fzero F)) e X t o is s (hash (flatten t)) (zeros F (need t) (m_ncols X)) Hok HX) as (sc' & E & _).
    - apply fill_length.
    - exact HC.
    - intros _ _. unfold mat_ok; cbn. apply fill_length.
    - cbn [p_slots x_rows x_plan x_scratch bind expect ctx_new x_nodes_len x_n_consts x_n_features]. rewrite E. cbn [bind].
      destruct (expected _ e X t o) as [a b]. reflexivity.
  Qed.

  (** Finite columns are finite rows. *)
  Lemma colfin_rows e X t : 1 <= m_ncols X ->
    body_fin e X t = true <-> forall r, r < m_ncols X -> finite_at F O e X t r = true.
  Proof.
    intros Hn. unfold body_fin, finite_at.
    induction t as [f|i|op ts IH] using tree_ind'; cbn [colfin tfinite]; try tauto.
    rewrite andb_true_iff.
    assert (Hcs : forallb (colfin F O (m_data X) (m_ncols X) (consts e)) ts = true <->
        forall r, r < m_ncols X -> forallb (tfinite F O (mat_at F X r) (const_at F e)) ts = true).
    { rewrite forallb_forall. rewrite Forall_forall in IH. split.
      - intros H r Hr. apply forallb_forall. intros c Hc. apply (IH c Hc); auto.
      - intros H c Hc. apply (IH c Hc). intros r Hr. specialize (H r Hr). rewrite forallb_forall in H; auto. }
    rewrite Hcs. clear Hcs.
    assert (Hk : kfin F (m_ncols X) (forallb is_tconst ts) (col F O (m_data X) (m_ncols X) (consts e) (TOp op ts)) = true
       <-> forall r, r < m_ncols X -> ffinite F (oeval O (List.length ts) op (map (teval O (mat_at F X r) (const_at F e)) ts)) = true).
    { unfold kfin. destruct (forallb is_tconst ts) eqn:Ec.
      - assert (He : forall r, map (teval O (mat_at F X r) (const_at F e)) ts = map (teval O (mat_at F X 0) (const_at F e)) ts).
        { intros r. apply map_ext_in. intros c Hc. rewrite forallb_forall in Ec. specialize (Ec c Hc).
          destruct c; try discriminate. reflexivity. }
        split.
        + intros H r Hr. rewrite He. exact H.
        + intros H. exact (H 0 ltac:(lia)).
      - rewrite forallb_forall. split.
        + intros H r Hr. apply H. unfold tab. apply in_map_iff. exists r. split; auto. apply in_seq; lia.
        + intros H v Hv. unfold tab in Hv. apply in_map_iff in Hv as (r & <- & Hr). apply in_seq in Hr. apply H. lia. }
    rewrite Hk. split.
    - intros [H1 H2] r Hr. rewrite H1, H2; auto.
    - intros H. split; intros r Hr; specialize (H r Hr); apply andb_true_iff in H; tauto.
  Qed.

  (** Contexts reachable by any history of evaluations of formulas from [Seen], with the public row count set
      freely in between. *)
  Inductive ctx_reach (Seen : list pnode -> Prop) : ectx T -> Prop :=
  | reach_new n : ctx_reach Seen (ctx_new n)
  | reach_eval c out e X o c' out' flag :
      ctx_reach Seen c -> mat_ok X -> Seen (nodes e) ->
      eval_tree_array_into F O hash D out e X c o = Ok (c', out', flag) -> ctx_reach Seen c'
  | reach_rows c n : ctx_reach Seen c ->
      ctx_reach Seen (mkCtx (x_scratch c) n (x_plan c) (x_nodes_len c) (x_n_consts c) (x_n_features c)).

  Lemma eval_rows_loop_len (f : list T -> T) views o : forall k row acc complete out cpl,
    eval_rows_loop F f views o row k acc complete = Ok (Some (out, cpl)) -> List.length out = List.length acc + k.
  Proof.
    induction k as [|k IH]; cbn [eval_rows_loop]; intros row acc complete out cpl H.
    - injection H as <- _. lia.
    - apply bind_ok in H as (vals & _ & H). destruct (maybe_mark_nonfinite _ _ _ _) as [go c'].
      destruct go; [|discriminate]. apply IH in H. rewrite app_length in H. cbn in H. lia.
  Qed.

  Lemma eval_nary_len A (f : list T -> T) n args o out ok :
    eval_nary F A f n args o = Ok (out, ok) -> List.length out = n.
  Proof.
    unfold eval_nary. intros H. apply bind_ok in H as (_ & _ & H).
    assert (Hfin : forall l c, List.length (fst (finish_eval F o l c)) = List.length l).
    { intros l c. unfold finish_eval. destruct (negb (check_finite o)); auto.
      destruct (negb _ && _); auto. cbn. apply fill_length. }
    destruct (forallb is_const_ref args).
    - apply bind_ok in H as (vals & _ & H). destruct (negb (check_finite o)); [injection H as <- <-; apply fill_length|].
      destruct (_ && _); injection H as <- <-; apply fill_length.
    - destruct (A =? 1); [|destruct (A =? 2)].
      + apply bind_ok in H as (x & _ & H). apply bind_ok in H as (l & Hl & H). injection H as H.
        specialize (Hfin l true). rewrite H in Hfin. cbn in Hfin. rewrite Hfin.
        unfold eval_unary_loop in Hl. destruct x as [xs|xc].
        * destruct (Nat.eqb_spec n (List.length xs)); [|discriminate]. injection Hl as <-. now rewrite map_length.
        * injection Hl as <-. apply fill_length.
      + apply bind_ok in H as (x & _ & H). apply bind_ok in H as (y & _ & H).
        apply bind_ok in H as (l & Hl & H). injection H as H.
        specialize (Hfin l true). rewrite H in Hfin. cbn in Hfin. rewrite Hfin.
        unfold eval_binary_loop in Hl. destruct x as [xs|xc], y as [ys|yc].
        * apply bind_ok in Hl as (z & _ & Hl). destruct (Nat.eqb_spec n (List.length z)); [|discriminate].
          injection Hl as <-. now rewrite map_length.
        * destruct (Nat.eqb_spec n (List.length xs)); [|discriminate]. injection Hl as <-. now rewrite map_length.
        * destruct (Nat.eqb_spec n (List.length ys)); [|discriminate]. injection Hl as <-. now rewrite map_length.
        * injection Hl as <-. apply fill_length.
      + apply bind_ok in H as (r & Hr & H). destruct r as [[l c]|].
        * injection H as H. specialize (Hfin l c). rewrite H in Hfin. cbn in Hfin. rewrite Hfin.
          apply eval_rows_loop_len in Hr. exact Hr.
        * injection H as <- <-. apply fill_length.
  Qed.

  Lemma exec_instr_len x n cs o sc i sc' ok :
    exec_instr F O x n cs o sc i = Ok (sc', ok) -> List.length sc' = List.length sc.
  Proof.
    unfold exec_instr, split_at. intros H.
    destruct (Nat.leb_spec (i_dst i * n) (List.length sc)); [|discriminate]. cbn [bind] in H.
    destruct (Nat.leb_spec n (List.length (skipn (i_dst i * n) sc))); [|discriminate]. cbn [bind] in H.
    apply bind_ok in H as (args & _ & H). apply bind_ok in H as ([out ok'] & Ho & H).
    injection H as <- <-. unfold ops_eval in Ho. destruct (oknown O _ _); [|discriminate].
    apply eval_nary_len in Ho. rewrite !app_length, Ho, !firstn_length, !skipn_length in *. lia.
  Qed.

  Lemma exec_instrs_len x n cs o is : forall sc c sc' st,
    exec_instrs F O x n cs o is sc c = Ok (sc', st) -> List.length sc' = List.length sc.
  Proof.
    induction is as [|i is IH]; cbn [exec_instrs]; intros sc c sc' st H.
    - injection H as <- _. reflexivity.
    - apply bind_ok in H as ([s1 ok] & H1 & H). apply exec_instr_len in H1.
      destruct (early_exit o && negb ok); [injection H as <- _; auto|]. apply IH in H. congruence.
  Qed.

  Lemma eval_plan_scratch out p e X sc o sc' out' flag :
    mat_ok sc -> eval_plan_array_into F O out p e X sc o = Ok (sc', out', flag) -> mat_ok sc'.
  Proof.
    intros Hs H. unfold eval_plan_array_into in H. apply bind_ok in H as (_ & _ & H).
    set (s0 := if _ || _ then _ else _) in H.
    assert (Hs0 : mat_ok s0).
    { subst s0. destruct (_ || _); auto. unfold mat_ok; cbn. apply fill_length. }
    clearbody s0. apply bind_ok in H as ([sd st] & He & H). apply exec_instrs_len in He.
    assert (Hm : mat_ok (mkMat sd (m_nrows s0) (m_ncols s0))).
    { unfold mat_ok in *; cbn. congruence. }
    destruct st as [cpl|]; [|injection H as <- <- <-; exact Hm].
    destruct (p_root p).
    - apply bind_ok in H as (v & _ & H). injection H as <- <- <-. exact Hm.
    - apply bind_ok in H as (v & _ & H). injection H as <- <- <-. exact Hm.
    - apply bind_ok in H as (v & _ & H). destruct (_ && _); [destruct (early_exit o)|];
        injection H as <- <- <-; exact Hm.
  Qed.

  Lemma ctx_reach_inv Seen c : ctx_reach Seen c -> CtxInv Seen c.
  Proof.
    induction 1 as [n|c out e X o c' out' flag _ IH HX HSe HE|c n _ IH].
    - apply ctx_new_inv.
    - unfold eval_tree_array_into in HE. apply bind_ok in HE as (_ & _ & HE). apply bind_ok in HE as (_ & _ & HE).
      apply bind_ok in HE as (c1 & Hs & HE). apply bind_ok in HE as (p & Hp & HE).
      apply bind_ok in HE as (s & Hsc & HE). apply bind_ok in HE as ([[s' o'] fl] & He & HE).
      injection HE as <- <- <-.
      assert (Hi1 : CtxInv Seen c1).
      { unfold ctx_setup in Hs. apply bind_ok in Hs as (c0 & Hc0 & Hs). apply bind_ok in Hs as (p0 & Hp0 & Hs).
        injection Hs as <-.
        assert (Hi0 : CtxInv Seen c0).
        { destruct (needs_recompile hash c e (m_nrows X)).
          - apply bind_ok in Hc0 as (p1 & Hp1 & Hc0). injection Hc0 as <-. split; cbn.
            + exists (nodes e). auto.
            + apply IH.
          - injection Hc0 as <-. exact IH. }
        unfold ensure_scratch. destruct (match x_scratch c0 with Some _ => _ | None => _ end); auto.
        split; cbn; [apply Hi0|]. unfold mat_ok; cbn. apply fill_length. }
      split; cbn.
      + apply Hi1.
      + destruct Hi1 as [_ Hi1]. destruct (x_scratch c1) as [s1|]; [|discriminate]. injection Hsc as <-.
        eapply eval_plan_scratch; eauto.
    - destruct IH as [H1 H2]. split; cbn; auto.
  Qed.
End Top.
