(** Derivatives and gradients of whole expressions, and reuse of their contexts. *)
From Verif Require Import Base BaseLemmas Node Tree NodeProofs Compile CompileProofs Eval EvalProofs EvalTop
  Deriv DerivSpec Machine DerivProofs.

(** Specification vocabulary: the seed of a leaf. *)
Definition one_hot {T} (F : FloatOps T) (dir k : nat) : T := if dir =? k then fone F else fzero F.
Definition no_seed {T} (F : FloatOps T) (k : nat) : T := fzero F.

(** Derivative of [t] at row [r] with respect to feature [dir]. *)
Definition der_at {T} (F : FloatOps T) (O : OpSet T) (e : expr T) (X : matrix T) (dir : nat) (t : tree) (r : nat) : T :=
  tder F O (mat_at F X r) (const_at F e) (one_hot F dir) (no_seed F) false t.

(** Component [dir] of the gradient of [t] at row [r]; [variable] selects features or constants. *)
Definition grad_comp {T} (F : FloatOps T) (O : OpSet T) (e : expr T) (X : matrix T) (variable : bool)
    (t : tree) (dir r : nat) : T :=
  tder F O (mat_at F X r) (const_at F e)
       (if variable then one_hot F dir else no_seed F) (if variable then no_seed F else one_hot F dir) true t.

(** All values (and derivatives of operators with at least three arguments) finite at row [r]. *)
Definition diff_finite_at {T} (F : FloatOps T) (O : OpSet T) (e : expr T) (X : matrix T) (dir : nat) (t : tree) (r : nat) : bool :=
  dfinite F O (mat_at F X r) (const_at F e) (one_hot F dir) (no_seed F) t.

Lemma slot_slice {T} W S (l : list T) d k :
  List.length l = S * W -> d < S -> k <> d -> k < S ->
  (if k <? d then slice (firstn (d * W) l) (k * W) W
   else if d <? k then slice (skipn W (skipn (d * W) l)) ((k - d - 1) * W) W else Panic) = Ok (chunk W k l).
Proof.
  intros Hl Hd Hne Hk.
  assert (Hb : List.length (firstn (d * W) l) = d * W) by (rewrite firstn_length, Hl; nia).
  destruct (Nat.ltb_spec k d).
  - rewrite slice_ok by (rewrite Hb; nia). f_equal. apply nth_error_ext. intros j.
    destruct (Nat.lt_ge_cases j W).
    + fold (chunk W k (firstn (d * W) l)). rewrite !chunk_nth by auto. rewrite nth_error_firstn by nia. reflexivity.
    + rewrite !(proj2 (nth_error_None _ _)); auto.
      * rewrite (chunk_length W k S); auto.
      * rewrite firstn_length. lia.
  - destruct (Nat.ltb_spec d k); [|lia].
    rewrite slice_ok by (rewrite !skipn_length, Hl; nia). f_equal. apply nth_error_ext. intros j.
    destruct (Nat.lt_ge_cases j W).
    + rewrite nth_error_firstn, !nth_error_skipn, chunk_nth by auto. f_equal. nia.
    + rewrite !(proj2 (nth_error_None _ _)); auto.
      * rewrite (chunk_length W k S); auto.
      * rewrite firstn_length. lia.
Qed.

Lemma split_at_ok {T} (l : list T) k : k <= List.length l -> split_at l k = Ok (firstn k l, skipn k l).
Proof. intros H. unfold split_at. destruct (Nat.leb_spec k (List.length l)); [reflexivity|lia]. Qed.

Section DiffExec.
  Context {T : Type} (F : FloatOps T) (O : OpSet T).
  Variables (x : list T) (n nf : nat) (cs : list T) (o : eopts) (D S direction : nat).
  Hypothesis Hx : List.length x = nf * n.
  Notation tok := (tree_ok D nf (List.length cs) (oknown O)).
  Notation colv := (col F O x n cs).

  Definition dcol (t : tree) (r : nat) : T :=
    tder F O (xval F x n r) (cval F cs) (one_hot F direction) (no_seed F) false t.

  Definition dwf (m : list T * list T) : Prop := List.length (fst m) = S * n /\ List.length (snd m) = S * n.
  Definition dget (m : list T * list T) (k : nat) : list T * list T := (chunk n k (fst m), chunk n k (snd m)).
  Definition drep (v : list T * list T) (t : tree) : Prop := fst v = tab n (colv t) /\ snd v = tab n (dcol t).
  Definition dlfin (op : nat) (ts : list tree) : bool :=
    dkfin F n (List.length ts) (colv (TOp op ts)) (dcol (TOp op ts)).

  Notation dmsrep := (msrep _ _ dget drep).

  Lemma diff_args m dst args ts :
    dwf m -> Forall2 (dmsrep m) args ts -> ~ In dst (slots args) -> (forall k, In k (slots args) -> k < S) ->
    dst < S -> Forall tok ts ->
    exists vs ds,
      mapM (fun s => resolve_val_src s x n cs dst (firstn (dst * n) (fst m)) (skipn n (skipn (dst * n) (fst m)))) args = Ok vs
      /\ mapM (fun s => resolve_der_src F s direction dst (firstn (dst * n) (snd m)) (skipn n (skipn (dst * n) (snd m))) n) args = Ok ds
      /\ Forall2 (vrep n) vs (map colv ts) /\ Forall2 (vrep n) ds (map dcol ts)
      /\ Forall2 shape vs ds /\ map (deadv F) ds = map (dead_leaf F (one_hot F direction) (no_seed F)) ts.
  Proof.
    intros [Hw1 Hw2] HR Hn Hb Hd Hok.
    induction HR as [|s t ss ts Hs _ IH]; cbn [mapM map].
    - exists [], []. repeat split; constructor.
    - inversion Hok as [|? ? Ht Hts]; subst. rewrite slots_cons in Hn, Hb.
      destruct (resolve_spec F O x n nf cs Hx D S (fst m) dst s t) as (v & -> & Hv & Hcv); auto.
      { destruct s; cbn in Hs |- *; auto. destruct Hs as [H1 [H2 _]]. auto. }
      { intros k Hk. split; [intros ->; apply Hn, in_or_app; auto|apply Hb, in_or_app; auto]. }
      destruct IH as (vs & ds & -> & -> & IH1 & IH2 & IH3 & IH4); auto.
      { intros Hin; apply Hn, in_or_app; auto. }
      { intros k Hk; apply Hb, in_or_app; auto. }
      assert (exists d, resolve_der_src F s direction dst (firstn (dst * n) (snd m)) (skipn n (skipn (dst * n) (snd m))) n = Ok d
               /\ vrep n d (dcol t) /\ shape v d /\ deadv F d = dead_leaf F (one_hot F direction) (no_seed F) t) as (d & -> & Hd1 & Hd2 & Hd3).
      { destruct s as [k|f|i]; cbn in Hs; cbn [resolve_der_src].
        - destruct Hs as ((op & us & ->) & _ & Hdr). cbn in Hdr.
          assert (Hk : In k (slots [SSlot k])) by (cbn; auto).
          assert (k <> dst) by (intros ->; apply Hn, in_or_app; auto).
          assert (k < S) by (apply Hb, in_or_app; auto).
          pose proof (slot_slice n S (snd m) dst k Hw2 Hd H H0) as E.
          exists (RSlice (chunk n k (snd m))). split.
          + destruct (k <? dst); [rewrite E; reflexivity|]. destruct (dst <? k); [rewrite E; reflexivity|discriminate].
          + repeat split; auto.
        - subst t. eexists; split; [reflexivity|]. cbn. rewrite Nat.eqb_sym. repeat split; auto.
        - subst t. eexists; split; [reflexivity|]. cbn. repeat split; auto. }
      exists (v :: vs), (d :: ds). cbn. rewrite Hd3, IH4. repeat split; auto.
  Qed.

  Lemma diff_step_ok m op ts args dst :
    dwf m -> Forall2 (dmsrep m) args ts -> ~ In dst (slots args) -> (forall k, In k (slots args) -> k < S) ->
    dst < S -> tok (TOp op ts) ->
    exists m' ok, diff_instr F O x n cs direction o m (mkInstr (List.length ts) op args dst) = Ok (m', ok) /\ dwf m'
      /\ (kstop o (dlfin op ts) = true -> ok = false)
      /\ (kstop o (dlfin op ts) = false ->
            ok = kflag o (dlfin op ts) /\ drep (dget m' dst) (TOp op ts)
            /\ forall k, k < S -> k <> dst -> dget m' k = dget m k).
  Proof.
    intros Hw HR Hn Hb Hd Hok. cbn [tree_ok] in Hok. destruct Hok as (Hlen & Hkn & Hok).
    apply fold_right_and_Forall in Hok.
    destruct (diff_args m dst args ts Hw HR Hn Hb Hd Hok) as (vs & ds & E1 & E2 & HV & HD & HS & Hdead).
    destruct Hw as [Hw1 Hw2]. unfold diff_instr. destruct m as [mv md]. cbn [fst snd i_dst i_arity i_args i_op] in *.
    rewrite split_at_ok by (rewrite Hw1; nia). cbn [bind].
    rewrite split_at_ok by (rewrite skipn_length, Hw1; nia). cbn [bind].
    rewrite split_at_ok by (rewrite Hw2; nia). cbn [bind].
    rewrite split_at_ok by (rewrite skipn_length, Hw2; nia). cbn [bind].
    assert (Hla : List.length args = List.length ts) by (apply Forall2_len in HR; exact HR).
    replace (firstn (List.length ts) args) with args by (symmetry; apply firstn_all2; lia).
    rewrite E1, E2. cbn [bind]. rewrite Hkn. cbn [assert_ bind].
    rewrite firstn_length, skipn_length, Hw1. replace (Nat.min n (S * n - dst * n)) with n by nia.
    destruct (diff_nary_spec F (List.length ts) (oeval O (List.length ts) op) (opartial O (List.length ts) op) o n vs ds _ _ HV HD HS)
      as (ov & od & ok & E & Hlv & Hld & Hst & Hgo).
    { rewrite (Forall2_len _ _ _ HV), map_length. auto. }
    { lia. }
    rewrite E. cbn [bind]. cbn zeta in Hst, Hgo. rewrite Hdead in Hst, Hgo.
    match type of Hst with kstop o (dkfin F n _ ?h ?hd) = true -> _ => set (h1 := h) in *; set (hd1 := hd) in * end.
    assert (Hh : forall r, h1 r = colv (TOp op ts) r).
    { intros r. subst h1. unfold col at 2. cbn [teval]. rewrite map_map. reflexivity. }
    assert (Hhd : forall r, hd1 r = dcol (TOp op ts) r).
    { intros r. subst hd1. unfold dcol at 2. cbn [tder]. rewrite !map_map. reflexivity. }
    assert (Hk : dkfin F n (List.length ts) h1 hd1 = dlfin op ts).
    { unfold dlfin, dkfin. rewrite (tab_ext n h1 _ (fun i _ => Hh i)), (tab_ext n hd1 _ (fun i _ => Hhd i)). reflexivity. }
    rewrite Hk in Hst, Hgo.
    do 2 eexists; split; [reflexivity|].
    assert (Hwf' : dwf (firstn (dst * n) mv ++ ov ++ skipn n (skipn (dst * n) mv),
                        firstn (dst * n) md ++ od ++ skipn n (skipn (dst * n) md))).
    { split; cbn [fst snd]; apply (write_length n S); auto. }
    split; auto. split; auto. intros Ek. destruct (Hgo Ek) as (-> & -> & ->). split; auto.
    split.
    - split; cbn [dget fst snd]; rewrite (chunk_write n S), Nat.eqb_refl by auto; apply tab_ext; intros; auto.
    - intros k Hk1 Hk2. unfold dget. cbn [fst snd].
      rewrite !(chunk_write n S) by auto. destruct (Nat.eqb_spec k dst); [congruence|reflexivity].
  Qed.
End DiffExec.

Section GradExec.
  Context {T : Type} (F : FloatOps T) (O : OpSet T).
  Variables (x : list T) (n nf : nat) (cs : list T) (o : eopts) (D S nd : nat) (variable : bool).
  Hypothesis Hx : List.length x = nf * n.
  Hypothesis Hn1 : 1 <= n.
  Notation tok := (tree_ok D nf (List.length cs) (oknown O)).
  Notation colv := (col F O x n cs).
  Notation W := (n * nd).

  Definition gsv (dir : nat) : nat -> T := if variable then one_hot F dir else no_seed F.
  Definition gsc (dir : nat) : nat -> T := if variable then no_seed F else one_hot F dir.
  Definition gcol (t : tree) (dir r : nat) : T :=
    tder F O (xval F x n r) (cval F cs) (gsv dir) (gsc dir) true t.

  Definition gwf (m : list T * list T) : Prop := List.length (fst m) = S * n /\ List.length (snd m) = S * W.
  Definition gget (m : list T * list T) (k : nat) : list T * list T := (chunk n k (fst m), chunk W k (snd m)).
  Definition grepr (v : list T * list T) (t : tree) : Prop := fst v = tab n (colv t) /\ snd v = gflat nd n (gcol t).
  Definition glfin (op : nat) (ts : list tree) : bool := gkfin F n (colv (TOp op ts)).

  Notation gmsrep := (msrep _ _ gget grepr).

  Lemma grad_args m dst args ts :
    gwf m -> Forall2 (gmsrep m) args ts -> ~ In dst (slots args) -> (forall k, In k (slots args) -> k < S) ->
    dst < S -> Forall tok ts ->
    exists vs ds,
      mapM (fun s => resolve_val_src s x n cs dst (firstn (dst * n) (fst m)) (skipn n (skipn (dst * n) (fst m)))) args = Ok vs
      /\ mapM (fun s => resolve_grad_src s variable dst (firstn (dst * W) (snd m)) (skipn W (skipn (dst * W) (snd m))) W) args = Ok ds
      /\ Forall2 (vrep n) vs (map colv ts) /\ Forall2 (grep F nd n) ds (map gcol ts)
      /\ Forall2 gshape vs ds /\ forall d, map (fun g => gdead F g d) ds = map (dead_leaf F (gsv d) (gsc d)) ts.
  Proof.
    intros [Hw1 Hw2] HR Hn Hb Hd Hok.
    induction HR as [|s t ss ts Hs _ IH]; cbn [mapM map].
    - exists [], []. repeat split; constructor.
    - inversion Hok as [|? ? Ht Hts]; subst. rewrite slots_cons in Hn, Hb.
      destruct (resolve_spec F O x n nf cs Hx D S (fst m) dst s t) as (v & -> & Hv & Hcv); auto.
      { destruct s; cbn in Hs |- *; auto. destruct Hs as [H1 [H2 _]]. auto. }
      { intros k Hk. split; [intros ->; apply Hn, in_or_app; auto|apply Hb, in_or_app; auto]. }
      destruct IH as (vs & ds & -> & -> & IH1 & IH2 & IH3 & IH4); auto.
      { intros Hin; apply Hn, in_or_app; auto. }
      { intros k Hk; apply Hb, in_or_app; auto. }
      assert (exists d, resolve_grad_src s variable dst (firstn (dst * W) (snd m)) (skipn W (skipn (dst * W) (snd m))) W = Ok d
               /\ grep F nd n d (gcol t) /\ gshape v d /\ forall dir, gdead F d dir = dead_leaf F (gsv dir) (gsc dir) t) as (d & -> & Hd1 & Hd2 & Hd3).
      { destruct s as [k|f|i]; cbn in Hs; cbn [resolve_grad_src].
        - destruct Hs as ((op & us & ->) & _ & Hdr). cbn in Hdr.
          assert (Hk : In k (slots [SSlot k])) by (cbn; auto).
          assert (k <> dst) by (intros ->; apply Hn, in_or_app; auto).
          assert (k < S) by (apply Hb, in_or_app; auto).
          pose proof (slot_slice W S (snd m) dst k Hw2 Hd H H0) as E.
          exists (GSlice (chunk W k (snd m))). split.
          + destruct (k <? dst); [rewrite E; reflexivity|]. destruct (dst <? k); [rewrite E; reflexivity|discriminate].
          + repeat split; auto.
        - subst t. eexists; split; [reflexivity|]. unfold gcol, gsv, gsc. destruct variable; cbn; repeat split; auto.
        - subst t. eexists; split; [reflexivity|]. unfold gcol, gsv, gsc. destruct variable; cbn; repeat split; auto. }
      exists (v :: vs), (d :: ds). cbn. repeat split; auto. intros dir. rewrite Hd3, IH4. reflexivity.
  Qed.

  Lemma grad_step_ok m op ts args dst :
    gwf m -> Forall2 (gmsrep m) args ts -> ~ In dst (slots args) -> (forall k, In k (slots args) -> k < S) ->
    dst < S -> tok (TOp op ts) ->
    exists m' ok, grad_instr F O x n nd cs variable o m (mkInstr (List.length ts) op args dst) = Ok (m', ok) /\ gwf m'
      /\ (kstop o (glfin op ts) = true -> ok = false)
      /\ (kstop o (glfin op ts) = false ->
            ok = kflag o (glfin op ts) /\ grepr (gget m' dst) (TOp op ts)
            /\ forall k, k < S -> k <> dst -> gget m' k = gget m k).
  Proof.
    intros Hw HR Hn Hb Hd Hok. cbn [tree_ok] in Hok. destruct Hok as (Hlen & Hkn & Hok).
    apply fold_right_and_Forall in Hok.
    destruct (grad_args m dst args ts Hw HR Hn Hb Hd Hok) as (vs & ds & E1 & E2 & HV & HD & HS & Hdead).
    destruct Hw as [Hw1 Hw2]. unfold grad_instr. destruct m as [mv md]. cbn [fst snd i_dst i_arity i_args i_op] in *.
    rewrite split_at_ok by (rewrite Hw1; nia). cbn [bind].
    rewrite split_at_ok by (rewrite skipn_length, Hw1; nia). cbn [bind].
    rewrite split_at_ok by (rewrite Hw2; nia). cbn [bind].
    rewrite split_at_ok by (rewrite skipn_length, Hw2; nia). cbn [bind].
    assert (Hla : List.length args = List.length ts) by (apply Forall2_len in HR; exact HR).
    replace (firstn (List.length ts) args) with args by (symmetry; apply firstn_all2; lia).
    rewrite E1, E2. cbn [bind]. rewrite Hkn. cbn [assert_ bind].
    destruct (grad_nary_spec F (List.length ts) (oeval O (List.length ts) op) (opartial O (List.length ts) op) o nd n vs ds _ _ HV HD HS)
      as (ov & od & ok & E & Hlv & Hld & Hst & Hgo); auto.
    { rewrite (Forall2_len _ _ _ HV), map_length. auto. }
    { lia. }
    rewrite E. cbn [bind]. cbn zeta in Hst, Hgo.
    match type of Hst with kstop o (gkfin F n ?h) = true -> _ => set (h1 := h) in * end.
    assert (Hh : forall r, h1 r = colv (TOp op ts) r).
    { intros r. subst h1. unfold col at 2. cbn [teval]. rewrite map_map. reflexivity. }
    assert (Hk : gkfin F n h1 = glfin op ts).
    { unfold glfin, gkfin. rewrite (tab_ext n h1 _ (fun i _ => Hh i)). reflexivity. }
    rewrite Hk in Hst, Hgo.
    do 2 eexists; split; [reflexivity|].
    assert (Hld' : List.length od = W) by lia.
    assert (Hwf' : gwf (firstn (dst * n) mv ++ ov ++ skipn n (skipn (dst * n) mv),
                        firstn (dst * W) md ++ od ++ skipn W (skipn (dst * W) md))).
    { split; cbn [fst snd]; [apply (write_length n S); auto|apply (write_length W S); auto]. }
    split; auto. split; auto. intros Ek. destruct (Hgo Ek) as (-> & Hod & ->). split; auto.
    split.
    - split; cbn [gget fst snd].
      + rewrite (chunk_write n S), Nat.eqb_refl by auto; apply tab_ext; intros; auto.
      + rewrite (chunk_write W S), Nat.eqb_refl by auto. rewrite Hod. apply gflat_ext. intros d r _ _.
        unfold gcol at 2. cbn [tder]. rewrite Hdead, !map_map. reflexivity.
    - intros k Hk1 Hk2. unfold gget. cbn [fst snd].
      rewrite (chunk_write n S), (chunk_write W S) by auto. destruct (Nat.eqb_spec k dst); [congruence|reflexivity].
  Qed.
End GradExec.

(** Contexts. *)
Section DTop.
  Context {T : Type} (F : FloatOps T) (O : OpSet T) (hash : list pnode -> N) (D : nat).

  Record DctxInv (Seen : list pnode -> Prop) (c : dctx T) : Prop := {
    di_plan : match d_plan c with
              | None => True
              | Some p => exists ns, Seen ns /\ compile_plan hash D ns (d_n_features c) (d_n_consts c) = Ok p
                          /\ d_nodes_len c = List.length ns
              end;
    di_val : mat_ok (d_val c);
    di_der : mat_ok (d_der c)
  }.

  Lemma dctx_new_inv Seen n : DctxInv Seen (dctx_new F n).
  Proof. split; try reflexivity; exact I. Qed.

  Lemma densure_inv Seen c a w : DctxInv Seen c -> DctxInv Seen (densure F c a w).
  Proof.
    intros [H1 H2 H3]. unfold densure. split; cbn; auto.
    - destruct (_ || _); auto. unfold mat_ok; cbn. apply fill_length.
    - destruct (_ || _); auto. unfold mat_ok; cbn. apply fill_length.
  Qed.

  Lemma densure_dims c a w :
    let c' := densure F c a w in
    m_nrows (d_val c') = a /\ m_ncols (d_val c') = d_rows c /\ m_nrows (d_der c') = a /\ m_ncols (d_der c') = w
    /\ d_rows c' = d_rows c /\ d_plan c' = d_plan c.
  Proof.
    cbn. repeat split; try reflexivity.
    all: match goal with |- _ (if negb (?a =? ?b) || negb (?c =? ?d) then _ else _) = _ =>
           destruct (Nat.eqb_spec a b), (Nat.eqb_spec c d); cbn; auto end.
  Qed.

  Lemma dsetup_spec (Seen : list pnode -> Prop) c e t nf width is s :
    represents e t -> DctxInv Seen c -> Seen (nodes e) -> told_apart hash Seen (nodes e) ->
    compile_plan hash D (flatten t) nf (List.length (consts e)) = Ok (mkPlan is (need t) s (hash (flatten t))) ->
    exists c1, dsetup F hash D c e nf width = Ok (c1, mkPlan is (need t) s (hash (flatten t)))
      /\ DctxInv Seen c1 /\ d_rows c1 = d_rows c
      /\ m_nrows (d_val c1) = need t /\ m_ncols (d_val c1) = d_rows c
      /\ m_nrows (d_der c1) = need t /\ m_ncols (d_der c1) = width.
  Proof.
    intros Hrep Hinv Hseen Hcol Ecp. unfold represents in Hrep. unfold dsetup.
    set (stale := _ || _ || _ || _).
    assert (Hc0 : exists c0, (if stale
        then let! p := compile_plan hash D (nodes e) nf (List.length (consts e)) in
             Ok (mkDctx (d_val c) (d_der c) (d_rows c) (Some p) (List.length (nodes e)) (List.length (consts e)) nf)
        else Ok c) = Ok c0
        /\ d_plan c0 = Some (mkPlan is (need t) s (hash (flatten t))) /\ DctxInv Seen c0 /\ d_rows c0 = d_rows c).
    { destruct stale eqn:En.
      - rewrite Hrep, Ecp. cbn [bind]. eexists; split; [reflexivity|]. cbn. repeat split; auto; try apply Hinv.
        cbn. exists (flatten t). rewrite Ecp, <- Hrep. auto.
      - exists c. split; auto. unfold stale in En. pose proof Hinv as [Hp Hs].
        destruct (d_plan c) as [p|]; [|rewrite !orb_true_r in En; discriminate].
        destruct (Nat.eqb_spec (d_nodes_len c) (List.length (nodes e))) as [E1|]; try discriminate.
        destruct (Nat.eqb_spec (d_n_consts c) (List.length (consts e))) as [E2|]; try discriminate.
        destruct (Nat.eqb_spec (d_n_features c) nf) as [E3|]; try discriminate.
        cbn in En. apply negb_false_iff, N.eqb_eq in En.
        destruct Hp as (ns & Hns & Hcp & Hlen).
        pose proof (compile_plan_hash _ _ _ _ _ _ Hcp) as Hh.
        assert (ns = nodes e) by (apply Hcol; congruence). subst ns.
        rewrite E2, E3, Hrep, Ecp in Hcp. split; [congruence|]. split; auto. }
    destruct Hc0 as (c0 & -> & Hp0 & Hi0 & Hr0). cbn [bind]. rewrite Hp0. cbn [expect bind p_slots].
    eexists; split; [reflexivity|].
    pose proof (densure_dims c0 (need t) width) as (H1 & H2 & H3 & H4 & H5 & _).
    split; [apply densure_inv; exact Hi0|]. repeat split; congruence.
  Qed.

  (** The whole flag of a derivative evaluation. *)
  Definition diff_fin (e : expr T) (X : matrix T) (direction : nat) (t : tree) : bool :=
    mfin (dlfin F O (m_data X) (m_ncols X) (consts e) direction) t && root_fin F e t.

  Definition expected_diff (e : expr T) (X : matrix T) (direction : nat) (t : tree) (o : eopts)
      : list T * list T * bool :=
    if kstop o (diff_fin e X direction t)
    then (fill (m_ncols X) (fnan F), fill (m_ncols X) (fnan F), false)
    else (tab (m_ncols X) (value_at F O e X t), tab (m_ncols X) (der_at F O e X direction t),
          kflag o (diff_fin e X direction t)).

  Lemma var_slice X f : mat_ok X -> f < m_nrows X ->
    slice (m_data X) (f * m_ncols X) (m_ncols X) = Ok (tab (m_ncols X) (fun r => mat_at F X r f)).
  Proof.
    intros HX Hf. rewrite slice_ok by (rewrite HX; nia). f_equal.
    apply nth_error_ext. intros j. destruct (Nat.lt_ge_cases j (m_ncols X)).
    - rewrite nth_error_firstn, nth_error_skipn, tab_nth by auto. unfold mat_at.
      apply nth_error_nth'. rewrite HX. nia.
    - rewrite !(proj2 (nth_error_None _ _)); auto; [now rewrite tab_length|rewrite firstn_length; lia].
  Qed.

  Lemma kstop_true o : kstop o true = false.
  Proof. unfold kstop. now rewrite andb_false_r. Qed.
  Lemma kflag_true o : kflag o true = true.
  Proof. unfold kflag. now rewrite orb_true_r. Qed.

  Lemma eval_diff_spec (Seen : list pnode -> Prop) e X t o c direction :
    ok_tree O D e X t -> mat_ok X -> fits_u16 e X t -> DctxInv Seen c -> Seen (nodes e) -> told_apart hash Seen (nodes e) ->
    d_rows c = m_ncols X -> direction < m_nrows X ->
    exists c', eval_diff_tree_array F O hash D e X direction c o = Ok (c', expected_diff e X direction t o)
      /\ DctxInv Seen c' /\ d_rows c' = d_rows c.
  Proof.
    intros Hok HX (Hf1 & Hf2 & Hf3) Hinv Hseen Hcol Hrows Hdir.
    unfold eval_diff_tree_array. destruct (Nat.ltb_spec direction (m_nrows X)); [|lia].
    rewrite Hrows, Nat.eqb_refl. cbn [assert_ bind].
    assert (Hneed : need t <= u16_max) by (pose proof (need_le_ops t); lia).
    destruct (compile_plan_spec D _ _ _ hash t (proj2 Hok) Hf1 Hf2 Hneed) as (is & s & Ecp & HC).
    destruct (dsetup_spec Seen c e t (m_nrows X) (m_ncols X) is s (proj1 Hok) Hinv Hseen Hcol Ecp)
      as (c1 & -> & Hi1 & Hr1 & Hv1 & Hv2 & Hd1 & Hd2).
    cbn [bind p_instrs p_root].
    pose proof (run_codes _ _ (diff_instr F O (m_data X) (m_ncols X) (consts e) direction o) o (need t)
      (dwf (m_ncols X) (need t)) (dget (m_ncols X))
      (drep F O (m_data X) (m_ncols X) (consts e) direction)
      (tree_ok D (m_nrows X) (List.length (consts e)) (oknown O))
      (dlfin F O (m_data X) (m_ncols X) (consts e) direction)) as [HR _].
    { intros op ts Ht. cbn [tree_ok] in Ht. apply fold_right_and_Forall. tauto. }
    { intros m op ts args dst. intros. eapply diff_step_ok; eauto. }
    destruct (HR _ _ _ _ HC (proj2 Hok) (fun k (H : In k []) => match H with end)
                 (m_data (d_val c1), m_data (d_der c1)) true) as (m' & Hw' & Erun & HP).
    { destruct Hi1 as [_ H1 H2]. unfold mat_ok in *. split; cbn [fst snd]; congruence. }
    rewrite Erun. cbn [bind]. clear HR Erun.
    assert (Hi' : DctxInv Seen (dctx_with c1 (fst m') (snd m'))).
    { destruct Hi1 as [H1 H2 H3]. destruct Hw' as [H4 H5]. split; cbn; auto; unfold mat_ok; cbn; congruence. }
    exists (dctx_with c1 (fst m') (snd m')).
    cut (forall r, r = Ok (dctx_with c1 (fst m') (snd m'), expected_diff e X direction t o) ->
          r = Ok (dctx_with c1 (fst m') (snd m'), expected_diff e X direction t o)
          /\ DctxInv Seen (dctx_with c1 (fst m') (snd m')) /\ d_rows (dctx_with c1 (fst m') (snd m')) = m_ncols X).
    2:{ intros r ->. split; auto. split; auto. cbn. congruence. }
    intros Hcut. apply Hcut. clear Hcut.
    unfold expected_diff, diff_fin. rewrite kstop_and, kflag_and.
    set (bf := mfin (dlfin F O (m_data X) (m_ncols X) (consts e) direction) t) in *.
    destruct (kstop o bf) eqn:Ek; cbn [orb]; [reflexivity|].
    destruct (HP eq_refl) as [Hs _]. destruct s as [k|f|i]; cbn in Hs.
    - destruct Hs as ((op & ts & ->) & Hr1' & Hr2'). cbn in Hr1', Hr2'. inversion HC; subst.
      destruct Hw' as [Hw1 Hw2].
      rewrite slice_ok by (rewrite Hw1; nia). cbn [bind]. fold (chunk (m_ncols X) k (fst m')).
      rewrite slice_ok by (rewrite Hw2; nia). cbn [bind]. fold (chunk (m_ncols X) k (snd m')).
      rewrite Hr1', Hr2'. cbn [root_fin]. rewrite kstop_true, kflag_true, andb_true_r. reflexivity.
    - subst t. destruct Hok as [_ Hok]. cbn [tree_ok] in Hok. rewrite var_slice by auto. cbn [bind root_fin].
      rewrite kstop_true, kflag_true, andb_true_r. cbn [andb]. rewrite <- tab_const.
      rewrite Nat.eqb_sym, ?kflag_true. reflexivity.
    - subst t. destruct Hok as [_ Hok]. cbn [tree_ok] in Hok. unfold index.
      rewrite (nth_error_nth' (consts e) (fnan F)) by auto. cbn [expect bind root_fin]. fold (const_at F e i).
      cbn in bf. subst bf. rewrite kflag_true. cbn [andb].
      unfold kstop, kflag. rewrite <- !tab_const.
      destruct (check_finite o), (ffinite F (const_at F e i)), (early_exit o); cbn; reflexivity.
  Qed.

  Definition grad_fin (e : expr T) (X : matrix T) (t : tree) : bool :=
    mfin (glfin F O (m_data X) (m_ncols X) (consts e)) t && root_fin F e t.

  Definition n_dirs (variable : bool) (e : expr T) (X : matrix T) : nat :=
    if variable then m_nrows X else List.length (consts e).

  Definition expected_grad (e : expr T) (X : matrix T) (variable : bool) (t : tree) (o : eopts)
      : list T * matrix T * bool :=
    let nd := n_dirs variable e X in
    if kstop o (grad_fin e X t)
    then (fill (m_ncols X) (fnan F), mkMat (fill (nd * m_ncols X) (fnan F)) nd (m_ncols X), false)
    else (tab (m_ncols X) (value_at F O e X t),
          mkMat (gflat nd (m_ncols X) (grad_comp F O e X variable t)) nd (m_ncols X),
          kflag o (grad_fin e X t)).

  Lemma fill_app {A} a b (v : A) : fill (a + b) v = fill a v ++ fill b v.
  Proof. unfold fill. apply repeat_app. Qed.

  Lemma gflat_fill nd n (v : nat -> T) :
    flat_map (fun dir => fill n (v dir)) (seq 0 nd) = gflat nd n (fun d _ => v d).
  Proof.
    rewrite flat_map_concat_map. unfold gflat. f_equal. apply map_ext. intros d. now rewrite tab_const.
  Qed.

  Lemma gflat_zero nd n (v : T) : fill (nd * n) v = gflat nd n (fun _ _ => v).
  Proof.
    rewrite <- (gflat_fill nd n (fun _ => v)). generalize 0.
    induction nd as [|nd IH]; intros k; cbn [Nat.mul seq flat_map]; auto.
    rewrite fill_app. f_equal. apply IH.
  Qed.

  Lemma eval_grad_spec (Seen : list pnode -> Prop) e X t o c variable :
    ok_tree O D e X t -> mat_ok X -> fits_u16 e X t -> DctxInv Seen c -> Seen (nodes e) -> told_apart hash Seen (nodes e) ->
    d_rows c = m_ncols X -> 1 <= m_ncols X ->
    exists c', eval_grad_tree_array F O hash D e X variable c o = Ok (c', expected_grad e X variable t o)
      /\ DctxInv Seen c' /\ d_rows c' = d_rows c.
  Proof.
    intros Hok HX (Hf1 & Hf2 & Hf3) Hinv Hseen Hcol Hrows Hn1.
    unfold eval_grad_tree_array. rewrite Hrows, Nat.eqb_refl. cbn [assert_ bind].
    fold (n_dirs variable e X). set (nd := n_dirs variable e X).
    assert (Hneed : need t <= u16_max) by (pose proof (need_le_ops t); lia).
    destruct (compile_plan_spec D _ _ _ hash t (proj2 Hok) Hf1 Hf2 Hneed) as (is & s & Ecp & HC).
    destruct (dsetup_spec Seen c e t (m_nrows X) (nd * m_ncols X) is s (proj1 Hok) Hinv Hseen Hcol Ecp)
      as (c1 & -> & Hi1 & Hr1 & Hv1 & Hv2 & Hd1 & Hd2).
    cbn [bind p_instrs p_root].
    pose proof (run_codes _ _ (grad_instr F O (m_data X) (m_ncols X) nd (consts e) variable o) o (need t)
      (gwf (m_ncols X) (need t) nd) (gget (m_ncols X) nd)
      (grepr F O (m_data X) (m_ncols X) (consts e) nd variable)
      (tree_ok D (m_nrows X) (List.length (consts e)) (oknown O))
      (glfin F O (m_data X) (m_ncols X) (consts e))) as [HR _].
    { intros op ts Ht. cbn [tree_ok] in Ht. apply fold_right_and_Forall. tauto. }
    { intros m op ts args dst. intros. eapply grad_step_ok; eauto. }
    destruct (HR _ _ _ _ HC (proj2 Hok) (fun k (H : In k []) => match H with end)
                 (m_data (d_val c1), m_data (d_der c1)) true) as (m' & Hw' & Erun & HP).
    { destruct Hi1 as [_ H1 H2]. unfold mat_ok in *. split; cbn [fst snd]; [congruence|].
      rewrite H2, Hd1, Hd2. f_equal. apply Nat.mul_comm. }
    rewrite Erun. cbn [bind]. clear HR Erun.
    assert (Hi' : DctxInv Seen (dctx_with c1 (fst m') (snd m'))).
    { destruct Hi1 as [H1 H2 H3]. destruct Hw' as [H4 H5]. split; cbn; auto; unfold mat_ok; cbn; [congruence|].
      rewrite H5, Hd1, Hd2. f_equal. apply Nat.mul_comm. }
    exists (dctx_with c1 (fst m') (snd m')).
    cut (forall r, r = Ok (dctx_with c1 (fst m') (snd m'), expected_grad e X variable t o) ->
          r = Ok (dctx_with c1 (fst m') (snd m'), expected_grad e X variable t o)
          /\ DctxInv Seen (dctx_with c1 (fst m') (snd m')) /\ d_rows (dctx_with c1 (fst m') (snd m')) = m_ncols X).
    2:{ intros r ->. split; auto. split; auto. cbn. congruence. }
    intros Hcut. apply Hcut. clear Hcut.
    unfold expected_grad, grad_fin. fold nd. cbn zeta. rewrite kstop_and, kflag_and.
    set (bf := mfin (glfin F O (m_data X) (m_ncols X) (consts e)) t) in *.
    destruct (kstop o bf) eqn:Ek; cbn [orb]; [reflexivity|].
    destruct (HP eq_refl) as [Hs _]. destruct s as [k|f|i]; cbn in Hs.
    - destruct Hs as ((op & ts & ->) & Hr1' & Hr2'). cbn in Hr1', Hr2'. inversion HC; subst.
      destruct Hw' as [Hw1 Hw2].
      rewrite slice_ok by (rewrite Hw1; nia). cbn [bind]. fold (chunk (m_ncols X) k (fst m')).
      rewrite slice_ok by (rewrite Hw2; nia). cbn [bind]. fold (chunk (m_ncols X * nd) k (snd m')).
      rewrite Hr1', Hr2'. cbn [root_fin]. rewrite kstop_true, kflag_true, andb_true_r. reflexivity.
    - subst t. destruct Hok as [_ Hok]. cbn [tree_ok] in Hok. rewrite var_slice by auto. cbn [bind root_fin].
      rewrite kstop_true, kflag_true, andb_true_r. cbn [andb].
      unfold one_hot_grad. destruct (Nat.leb_spec 1 (m_ncols X)); [|lia]. cbn [assert_ bind].
      rewrite gflat_fill, gflat_zero. unfold grad_comp. rewrite ?kflag_true. destruct variable; cbn [bind]; reflexivity.
    - subst t. destruct Hok as [_ Hok]. cbn [tree_ok] in Hok. unfold index.
      rewrite (nth_error_nth' (consts e) (fnan F)) by auto. cbn [expect bind root_fin]. fold (const_at F e i).
      cbn in bf. subst bf. rewrite kflag_true. cbn [andb].
      unfold one_hot_grad. destruct (Nat.leb_spec 1 (m_ncols X)); [|lia]. cbn [assert_ bind].
      rewrite gflat_fill.
      assert (Hg : (if variable then Ok (fill (nd * m_ncols X) (fzero F))
                    else Ok (gflat nd (m_ncols X) (fun d _ => if d =? i then fone F else fzero F)))
                   = Ok (gflat nd (m_ncols X) (grad_comp F O e X variable (TConst i)))).
      { rewrite gflat_zero. unfold grad_comp. destruct variable; reflexivity. }
      rewrite Hg. cbn [bind]. rewrite <- (tab_const _ (const_at F e i)).
      unfold kstop, kflag.
      destruct (check_finite o), (ffinite F (const_at F e i)), (early_exit o); cbn; reflexivity.
  Qed.

  (** The flag, row by row. *)
  Lemma diff_fin_rows e X direction t :
    diff_fin e X direction t = true <->
    (forall r, r < m_ncols X -> diff_finite_at F O e X direction t r = true) /\ root_fin F e t = true.
  Proof.
    unfold diff_fin. rewrite andb_true_iff. split; intros [H1 H2]; split; auto; clear H2; revert H1.
    all: unfold diff_finite_at; induction t as [f|i|op ts IH] using tree_ind'; cbn [mfin dfinite]; auto.
    - rewrite andb_true_iff, !forallb_forall. intros [Hc Hl] r Hr. rewrite Forall_forall in IH.
      unfold dlfin, dkfin in Hl. apply andb_true_iff in Hl as [Hl1 Hl2].
      rewrite andb_true_iff, andb_true_iff. split; [split|].
      + apply forallb_forall. intros c Hin. apply IH; auto.
      + rewrite forallb_forall in Hl1. apply Hl1. unfold tab. apply in_map_iff. exists r. split; auto. apply in_seq; lia.
      + destruct (List.length ts <=? 2); auto.
        rewrite forallb_forall in Hl2. apply Hl2. unfold tab. apply in_map_iff. exists r. split; auto. apply in_seq; lia.
    - intros H. rewrite Forall_forall in IH. apply andb_true_iff. split.
      + apply forallb_forall. intros c Hin. apply IH; auto. intros r Hr. specialize (H r Hr).
        apply andb_true_iff in H as [H _]. apply andb_true_iff in H as [H _]. rewrite forallb_forall in H. auto.
      + unfold dlfin, dkfin. apply andb_true_iff. split.
        * apply forallb_forall. intros v Hv. unfold tab in Hv. apply in_map_iff in Hv as (r & <- & Hr).
          apply in_seq in Hr. specialize (H r ltac:(lia)). apply andb_true_iff in H as [H _].
          apply andb_true_iff in H as [_ H]. exact H.
        * destruct (List.length ts <=? 2) eqn:E; auto.
          apply forallb_forall. intros v Hv. unfold tab in Hv. apply in_map_iff in Hv as (r & <- & Hr).
          apply in_seq in Hr. specialize (H r ltac:(lia)). apply andb_true_iff in H as [_ H]. exact H.
  Qed.

  Lemma grad_fin_rows e X t :
    grad_fin e X t = true <->
    (forall r, r < m_ncols X -> finite_at F O e X t r = true) /\ root_fin F e t = true.
  Proof.
    unfold grad_fin. rewrite andb_true_iff. split; intros [H1 H2]; split; auto; clear H2; revert H1.
    all: unfold finite_at; induction t as [f|i|op ts IH] using tree_ind'; cbn [mfin tfinite]; auto.
    - rewrite andb_true_iff, !forallb_forall. intros [Hc Hl] r Hr. rewrite Forall_forall in IH.
      unfold glfin, gkfin in Hl. rewrite forallb_forall in Hl.
      rewrite andb_true_iff. split.
      + apply forallb_forall. intros c Hin. apply IH; auto.
      + apply Hl. unfold tab. apply in_map_iff. exists r. split; auto. apply in_seq; lia.
    - intros H. rewrite Forall_forall in IH. apply andb_true_iff. split.
      + apply forallb_forall. intros c Hin. apply IH; auto. intros r Hr. specialize (H r Hr).
        apply andb_true_iff in H as [H _]. rewrite forallb_forall in H. auto.
      + unfold glfin, gkfin. apply forallb_forall. intros v Hv. unfold tab in Hv. apply in_map_iff in Hv as (r & <- & Hr).
        apply in_seq in Hr. specialize (H r ltac:(lia)). apply andb_true_iff in H as [_ H]. exact H.
  Qed.
End DTop.

(** Exact arithmetic: the shortcuts do not matter. *)
Section Exact.
  Context {T : Type} (F : FloatOps T) (O : OpSet T) (HZ : ZeroLaws F).
  Variables (var cst dvar dcst : nat -> T).

  Lemma chain_sum_dead p ds : Forall (fun d => d = fzero F) ds -> chain_sum F p ds = fzero F.
  Proof.
    intros H. unfold chain_sum.
    assert (G : forall acc k, acc = fzero F ->
      fold_left (fun acc jd => fadd F acc (fmul F (p (fst jd)) (snd jd))) (combine (seq k (List.length ds)) ds) acc = fzero F).
    { induction H as [|d ds Hd _ IH]; intros acc k ->; cbn; auto.
      apply IH. rewrite Hd, (zl_mul_0_r F HZ), (zl_add_0_l F HZ). reflexivity. }
    apply G. reflexivity.
  Qed.

  Lemma der_step_exact skip2 dead p ds :
    (forallb (fun b => b) dead = true -> Forall (fun d => d = fzero F) ds) ->
    der_step F skip2 dead p ds = chain_sum F p ds.
  Proof.
    intros H. unfold der_step. destruct ds as [|a [|b [|c l]]]; auto.
    - destruct (forallb (fun b => b) dead) eqn:E.
      + now rewrite chain_sum_dead by auto.
      + unfold chain_sum. cbn. now rewrite (zl_add_0_l F HZ).
    - destruct (skip2 && forallb (fun b => b) dead) eqn:E.
      + apply andb_true_iff in E as [_ E]. now rewrite chain_sum_dead by auto.
      + unfold chain_sum. cbn. now rewrite (zl_add_0_l F HZ).
  Qed.

  Lemma tder_exact skip2 t :
    tder F O var cst dvar dcst skip2 t = textbook_der F O var cst dvar dcst t.
  Proof.
    induction t as [f|i|op ts IH] using tree_ind'; cbn [tder textbook_der]; auto.
    rewrite der_step_exact.
    - f_equal. apply map_ext_in. rewrite Forall_forall in IH. auto.
    - intros Hd. apply Forall_forall. intros d Hin. apply in_map_iff in Hin as (c & <- & Hc).
      rewrite forallb_forall in Hd. specialize (Hd (dead_leaf F dvar dcst c)).
      assert (dead_leaf F dvar dcst c = true) by (apply Hd, in_map; auto).
      destruct c; cbn in H |- *; try discriminate; apply (zl_is_zero F HZ); auto.
  Qed.
End Exact.
