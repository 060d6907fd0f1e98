(** Constant folding (simplify.rs) refines a tree transformation. *)
From Verif Require Import Base BaseLemmas Node Tree NodeProofs Compile Eval EvalProofs Utils UtilsProofs PropUtils Simplify.

(** Specification. The value of a constant subtree, provided folding may compute it: operands finite,
    result finite. *)
Fixpoint all_some {A} (l : list (option A)) : option (list A) :=
  match l with
  | [] => Some []
  | None :: _ => None
  | Some x :: l' => match all_some l' with Some xs => Some (x :: xs) | None => None end
  end.

Fixpoint cval {T} (F : FloatOps T) (O : OpSet T) (cst : nat -> T) (t : tree) : option T :=
  match t with
  | TVar _ => None
  | TConst i => Some (cst i)
  | TOp op ts =>
      match all_some (map (cval F O cst) ts) with
      | Some vs =>
          if forallb (ffinite F) vs && ffinite F (oeval O (List.length ts) op vs)
          then Some (oeval O (List.length ts) op vs) else None
      | None => None
      end
  end.

(** Every maximal operator subtree with such a value is replaced by a constant; nothing else changes. *)
Inductive folded {T} (F : FloatOps T) (O : OpSet T) (cst cst' : nat -> T) : tree -> tree -> Prop :=
| fd_var : forall f, folded F O cst cst' (TVar f) (TVar f)
| fd_const : forall i, folded F O cst cst' (TConst i) (TConst i)
| fd_fold : forall op ts k, cval F O cst (TOp op ts) = Some (cst' k) -> folded F O cst cst' (TOp op ts) (TConst k)
| fd_keep : forall op ts ts', cval F O cst (TOp op ts) = None -> Forall2 (folded F O cst cst') ts ts' ->
    folded F O cst cst' (TOp op ts) (TOp op ts').

(** No operator whose arguments are all finite constants and whose result is finite remains. *)
Definition fully_folded {T} (F : FloatOps T) (O : OpSet T) (cst : nat -> T) (t : tree) : Prop :=
  forall op is, subtree (TOp op (map TConst is)) t ->
    forallb (ffinite F) (map cst is) = true ->
    ffinite F (oeval O (List.length is) op (map cst is)) = true -> is = [].

Lemma forall2_app_inv {A B} (R : A -> B -> Prop) l1 l2 m : Forall2 R (l1 ++ l2) m ->
  exists m1 m2, m = m1 ++ m2 /\ Forall2 R l1 m1 /\ Forall2 R l2 m2.
Proof. intros H. apply Forall2_app_inv_l in H as (m1 & m2 & H1 & H2 & ->). eauto. Qed.

Lemma flat_ids ts i : In i (const_ids (flat_map flatten ts)) <-> exists t, In t ts /\ In i (const_ids (flatten t)).
Proof.
  rewrite const_ids_in, in_flat_map. split; intros (t & H1 & H2); exists t; split; auto; now apply const_ids_in.
Qed.

Lemma op_ids op ts i : In i (const_ids (flatten (TOp op ts))) <-> exists t, In t ts /\ In i (const_ids (flatten t)).
Proof.
  cbn [flatten]. rewrite const_ids_app, in_app_iff, flat_ids. cbn. tauto.
Qed.

Section Fold.
  Context {T : Type} (F : FloatOps T) (O : OpSet T) (D nf : nat) (o : eopts) (d : T).
  Let known := oknown O.
  Let step := fold_step F O D o.
  Definition at_ (oc : list T) (i : nat) : T := nth i oc d.

  Lemma at_app oc new i : i < List.length oc -> at_ (oc ++ new) i = at_ oc i.
  Proof. intros H. unfold at_. now rewrite app_nth1. Qed.

  Lemma cval_ext cst cst' t : (forall i, In i (const_ids (flatten t)) -> cst i = cst' i) -> cval F O cst t = cval F O cst' t.
  Proof.
    induction t as [v|i|op ts IH] using tree_ind'; cbn [cval]; intros H; auto.
    - rewrite H; auto. left; auto.
    - replace (map (cval F O cst) ts) with (map (cval F O cst') ts); auto.
      apply map_ext_in. intros t Ht. symmetry. rewrite Forall_forall in IH. apply IH; auto.
      intros i Hi. apply H. apply op_ids. eauto.
  Qed.

  Lemma folded_ext c1 c2 c1' c2' t t' :
    folded F O c1 c1' t t' ->
    (forall i, In i (const_ids (flatten t)) -> c1 i = c2 i) ->
    (forall i, In i (const_ids (flatten t')) -> c1' i = c2' i) ->
    folded F O c2 c2' t t'.
  Proof.
    revert t'. induction t as [v|i|op ts IH] using tree_ind'; intros t' Hf H1 H2; inversion Hf; subst; try constructor.
    - rewrite <- H2 by (left; auto). rewrite <- (cval_ext c1) by auto. auto.
    - rewrite <- (cval_ext c1) by auto. auto.
    - match goal with H : Forall2 _ _ _ |- _ => rename H into Hc end.
      assert (H1' : forall t i, In t ts -> In i (const_ids (flatten t)) -> c1 i = c2 i) by (intros; apply H1; apply op_ids; eauto).
      assert (H2' : forall t i, In t ts' -> In i (const_ids (flatten t)) -> c1' i = c2' i) by (intros; apply H2; apply op_ids; eauto).
      clear -IH Hc H1' H2'. induction Hc as [|a b ts ts' Hab Hc IHc]; constructor.
      + inversion IH; subst. apply H1; auto; intros; [eapply H1'|eapply H2']; eauto; left; auto.
      + inversion IH; subst. apply IHc; auto; intros; [eapply H1'|eapply H2']; eauto; right; auto.
  Qed.

  (** The frame pushed for a result tree starting at node [start]. *)
  Definition frame_for (start : nat) (oc : list T) (t : tree) : frame T :=
    match t with TConst k => mkFrame start true (at_ oc k) | _ => mkFrame start false (fzero F) end.
  Fixpoint frames_for (start : nat) (oc : list T) (ts : list tree) : list (frame T) :=
    match ts with [] => [] | t :: ts' => frame_for start oc t :: frames_for (start + tsize t) oc ts' end.

  Definition cap := S u16_max.

  (** What holds of a processed tree. *)
  Definition good (oc oc' : list T) (t t' : tree) : Prop :=
    tree_ok D nf (List.length oc') known t'
    /\ (forall var, teval O var (at_ oc') t' = teval O var (at_ oc) t)
    /\ tsize t' <= tsize t
    /\ (fully_folded F O (at_ oc') t' \/ cap <= List.length oc').

  Lemma tree_ok_mono nc nc' t : nc <= nc' -> tree_ok D nf nc known t -> tree_ok D nf nc' known t.
  Proof.
    intros Hle. induction t as [v|i|op ts IH] using tree_ind'; cbn; auto; [lia|].
    intros (H1 & H2 & H3). split; auto. split; auto. rewrite fold_right_and_Forall in *.
    rewrite Forall_forall in *. auto.
  Qed.

  Lemma fully_ext c c' t : (forall i, In i (const_ids (flatten t)) -> c i = c' i) -> fully_folded F O c t -> fully_folded F O c' t.
  Proof.
    intros H Hf op is Hs. assert (E : map c is = map c' is).
    { apply map_ext_in. intros i Hi. apply H. remember (TOp op (map TConst is)) as s eqn:Es. clear Hf H. induction Hs as [s|s op' cs c0 Hc Hs IH].
      - subst. apply op_ids. exists (TConst i). split; [now apply in_map|left; auto].
      - apply op_ids. exists c0. auto. }
    rewrite <- E. apply Hf; auto.
  Qed.

  Lemma good_mono oc oc1 new t t' : good oc oc1 t t' -> tree_ok D nf (List.length oc) known t -> good oc (oc1 ++ new) t t'.
  Proof.
    intros (H1 & H2 & H3 & H4) Hok. unfold good. split; [|split; [|split; [exact H3|]]].
    - eapply tree_ok_mono; [|exact H1]. rewrite app_length; lia.
    - intros var. rewrite <- H2. apply teval_ext. intros i Hi. apply at_app. eapply tree_ok_ids; eauto.
    - destruct H4 as [H4|H4]; [left|right; rewrite app_length; lia].
      apply (fully_ext (at_ oc1)); auto. intros i Hi. symmetry. apply at_app. eapply tree_ok_ids; eauto.
  Qed.

  Lemma good_start oc new oc' t t' : good (oc ++ new) oc' t t' -> tree_ok D nf (List.length oc) known t -> good oc oc' t t'.
  Proof.
    intros (H1 & H2 & H3 & H4) Hok. unfold good. split; [auto|split; [|split; auto]].
    intros var. rewrite H2. apply teval_ext. intros i Hi. apply at_app. eapply tree_ok_ids; eauto.
  Qed.

  Lemma frame_for_mono start oc new t : (forall i, t = TConst i -> i < List.length oc) ->
    frame_for start (oc ++ new) t = frame_for start oc t.
  Proof. intros H. destruct t; cbn; auto. rewrite at_app; auto. Qed.

  Definition Ptree (t : tree) : Prop := forall out oc st ch,
    tree_ok D nf (List.length oc) known t ->
    exists t' new, foldM step (flatten t) (mkF out oc st ch)
        = Ok (mkF (out ++ flatten t') (oc ++ new) (frame_for (List.length out) (oc ++ new) t' :: st)
                (ch || negb (List.length new =? 0)))
      /\ good oc (oc ++ new) t t'
      /\ (new = [] -> t' = t)
      /\ Forall (fun v => ffinite F v = true) new
      /\ tsize t' + List.length new <= tsize t
      /\ (List.length (oc ++ new) <= Nat.max (List.length oc) cap)
      /\ (List.length oc + tsize t <= cap -> folded F O (at_ oc) (at_ (oc ++ new)) t t').

  Lemma Ptrees ts : Forall Ptree ts -> forall out oc st ch,
    Forall (tree_ok D nf (List.length oc) known) ts ->
    exists ts' new, foldM step (flat_map flatten ts) (mkF out oc st ch)
        = Ok (mkF (out ++ flat_map flatten ts') (oc ++ new) (rev (frames_for (List.length out) (oc ++ new) ts') ++ st)
                (ch || negb (List.length new =? 0)))
      /\ Forall2 (good oc (oc ++ new)) ts ts'
      /\ (new = [] -> ts' = ts)
      /\ Forall (fun v => ffinite F v = true) new
      /\ sum_list (map tsize ts') + List.length new <= sum_list (map tsize ts)
      /\ (List.length (oc ++ new) <= Nat.max (List.length oc) cap)
      /\ (List.length oc + sum_list (map tsize ts) <= cap -> Forall2 (folded F O (at_ oc) (at_ (oc ++ new))) ts ts').
  Proof.
    induction 1 as [|t ts Pt _ IH]; intros out oc st ch Hok.
    - exists [], []. cbn. rewrite !app_nil_r, orb_false_r. split; [reflexivity|]. repeat split; auto; try lia.
    - inversion Hok as [|? ? Hok1 Hok2]; subst. cbn [flat_map]. rewrite foldM_app.
      destruct (Pt out oc st ch Hok1) as (t' & n1 & E1 & G1 & N1 & F1 & S1 & L1 & X1). rewrite E1. cbn [bind].
      assert (Hok2' : Forall (tree_ok D nf (List.length (oc ++ n1)) known) ts).
      { eapply Forall_impl; [|exact Hok2]. intros a Ha. eapply tree_ok_mono; [|exact Ha]. rewrite app_length; lia. }
      destruct (IH (out ++ flatten t') (oc ++ n1) (frame_for (List.length out) (oc ++ n1) t' :: st) (ch || negb (List.length n1 =? 0)) Hok2')
        as (ts' & n2 & E2 & G2 & N2 & F2 & S2 & L2 & X2).
      exists (t' :: ts'), (n1 ++ n2). rewrite !app_assoc in *.
      assert (Hids : forall i, In i (const_ids (flatten t')) -> i < List.length (oc ++ n1)) by (eapply tree_ok_ids; apply G1).
      split.
      { rewrite E2. f_equal. cbn [flat_map frames_for rev]. rewrite app_length, flatten_length, !app_assoc.
        rewrite <- (app_assoc _ [_] st). cbn [app]. rewrite (frame_for_mono (List.length out) (oc ++ n1) n2 t').
        2:{ intros i ->. apply Hids. left; auto. }
        f_equal. rewrite <- orb_assoc. f_equal. rewrite app_length.
        destruct n1, n2; reflexivity. }
      split. { constructor; [now apply good_mono|].
        clear -G2 Hok2. revert Hok2; induction G2 as [|a b l l' Hab _ IHl]; intros Hok2; constructor; inversion Hok2; subst; auto.
        eapply good_start; eauto. }
      split. { intros E. apply app_eq_nil in E as [-> ->]. now rewrite N1, N2. }
      split. { apply Forall_app; auto. }
      split. { cbn. rewrite ?app_length in *. lia. }
      split. { rewrite ?app_length in *. lia. }
      intros Hc. cbn [map sum_list] in Hc. constructor.
      + eapply folded_ext; [apply X1; lia| auto |]. intros i Hi. symmetry. now apply at_app, Hids.
      + assert (X2' : Forall2 (folded F O (at_ (oc ++ n1)) (at_ ((oc ++ n1) ++ n2))) ts ts') by (apply X2; rewrite app_length; lia).
        clear -X2' Hok2. revert Hok2; induction X2' as [|a b l l' Hab _ IHl]; intros Hok2; constructor; inversion Hok2; subst; auto.
        eapply folded_ext; eauto. intros i Hi. apply at_app. eapply tree_ok_ids; eauto.
  Qed.

  Lemma frames_length s oc ts : List.length (frames_for s oc ts) = List.length ts.
  Proof. revert s; induction ts; intros; cbn; auto. Qed.

  Definition is_tc (t : tree) : bool := match t with TConst _ => true | _ => false end.
  Lemma frames_const s oc ts : forallb f_const (frames_for s oc ts) = forallb is_tc ts.
  Proof. revert s; induction ts as [|t ts IH]; intros s; cbn; auto. rewrite IH. destruct t; reflexivity. Qed.

  Lemma frames_vals s oc is : map f_val (frames_for s oc (map TConst is)) = map (at_ oc) is.
  Proof. revert s; induction is as [|i is IH]; intros s; cbn; auto. now rewrite IH. Qed.

  Lemma all_tc ts : forallb is_tc ts = true -> exists is, ts = map TConst is.
  Proof.
    induction ts as [|t ts IH]; cbn; [exists []; auto|]. rewrite andb_true_iff. intros [H1 H2].
    destruct (IH H2) as [is ->]. destruct t; try discriminate. exists (idx :: is). auto.
  Qed.

  Lemma folded_cval c c' t t' : folded F O c c' t t' -> cval F O c t = match t' with TConst k => Some (c' k) | _ => None end \/ t' = t.
  Proof. intros H. inversion H; subst; auto. Qed.

  Lemma folded_children_cval c c' ts ts' : Forall2 (folded F O c c') ts ts' ->
    (forall i, In i (const_ids (flat_map flatten ts)) -> c i = c' i) ->
    all_some (map (cval F O c) ts) = if forallb is_tc ts' then Some (map (fun t => match t with TConst k => c' k | _ => c 0 end) ts') else None.
  Proof.
    induction 1 as [|t t' ts ts' Ht _ IH]; intros Hi; cbn [map all_some forallb]; auto.
    rewrite IH by (intros i H; apply Hi; cbn; rewrite const_ids_app; apply in_or_app; auto).
    inversion Ht; subst; cbn [cval is_tc andb]; auto.
    - rewrite (Hi i) by (cbn; auto). destruct (forallb is_tc ts'); auto.
    - cbn [cval] in H. rewrite H. destruct (forallb is_tc ts'); auto.
    - cbn [cval] in H. rewrite H. auto.
  Qed.

  Lemma ops_eval_const a op vs : oknown O a op = true -> List.length vs = a ->
    exists out ok, ops_eval F O a op 1 (map (@RConst T) vs) o = Ok (out, ok)
      /\ exists v, index out 0 = Ok v
      /\ ok && ffinite F v = ffinite F (oeval O a op vs)
      /\ (ffinite F (oeval O a op vs) = true -> v = oeval O a op vs).
  Proof.
    intros Hk Hl. unfold ops_eval. rewrite Hk. unfold eval_nary. rewrite map_length, Hl, Nat.eqb_refl. cbn [assert_ bind].
    assert (E1 : forallb is_const_ref (map (@RConst T) vs) = true) by (clear; induction vs; cbn; auto).
    assert (E2 : mapM (fun v => view_get v 0) (map (@RConst T) vs) = Ok vs).
    { clear; induction vs as [|v vs IH]; cbn; auto. now rewrite IH. }
    rewrite E1, E2. cbn [bind]. destruct (check_finite o); cbn [negb].
    - destruct (ffinite F (oeval O a op vs)) eqn:Ef; cbn [negb andb].
      + do 2 eexists; split; [reflexivity|]. eexists; split; [reflexivity|]. cbn. rewrite Ef; auto.
      + destruct (early_exit o); (do 2 eexists; split; [reflexivity|]; eexists; split; [reflexivity|]; cbn; split; auto; discriminate).
    - do 2 eexists; split; [reflexivity|]. eexists; split; [reflexivity|]. cbn. auto.
  Qed.

  Lemma good_children_ok oc oc' ts ts' : Forall2 (good oc oc') ts ts' -> Forall (tree_ok D nf (List.length oc') known) ts'.
  Proof. induction 1 as [|? ? ? ? H]; constructor; auto. apply H. Qed.

  Lemma good_children_eval oc oc' ts ts' var : Forall2 (good oc oc') ts ts' ->
    map (teval O var (at_ oc')) ts' = map (teval O var (at_ oc)) ts.
  Proof. induction 1 as [|? ? ? ? H]; cbn; auto. f_equal; auto. apply H. Qed.

  (** What is known when the operator is kept. *)
  Definition not_foldable (oc' : list T) (op : nat) (ts' : list tree) : Prop :=
    forall is, ts' = map TConst is -> forallb (ffinite F) (map (at_ oc') is) = true ->
      ffinite F (oeval O (List.length is) op (map (at_ oc') is)) = true -> is = [] \/ cap <= List.length oc'.

  Lemma good_keep oc oc' op ts ts' :
    tree_ok D nf (List.length oc) known (TOp op ts) -> Forall2 (good oc oc') ts ts' -> not_foldable oc' op ts' ->
    sum_list (map tsize ts') <= sum_list (map tsize ts) ->
    good oc oc' (TOp op ts) (TOp op ts').
  Proof.
    intros Hok HG Hnf Hs. cbn [tree_ok] in Hok. destruct Hok as (K1 & K2 & K3).
    pose proof (Forall2_len _ _ _ HG) as Hlen. unfold good. cbn [tree_ok teval tsize].
    split. { rewrite <- Hlen. split; auto. split; auto. rewrite fold_right_and_Forall. eapply good_children_ok; eauto. }
    split. { intros var. rewrite <- Hlen. f_equal. apply good_children_eval. auto. }
    split; [lia|].
    destruct (Nat.lt_ge_cases (List.length oc') cap) as [Hc|Hc]; [left|right; auto].
    intros p is Hsub Hf Hr. inversion Hsub; subst.
    - destruct (Hnf is eq_refl Hf Hr); auto; lia.
    - match goal with H : In c _ |- _ => rename H into Hin end.
      assert (Hg : exists t, good oc oc' t c).
      { clear -HG Hin. induction HG; cbn in Hin; [tauto|]. destruct Hin as [->|Hin]; eauto. }
      destruct Hg as (t & _ & _ & _ & [Hg|Hg]); [eapply Hg; eauto|lia].
  Qed.

  Lemma step_op out oc st ch op ts' :
    tree_ok D nf (List.length oc) known (TOp op ts') ->
    (exists is, ts' = map TConst is /\ forallb (ffinite F) (map (at_ oc) is) = true
        /\ ffinite F (oeval O (List.length is) op (map (at_ oc) is)) = true /\ List.length oc < cap
        /\ step (mkF (out ++ flat_map flatten ts') oc (rev (frames_for (List.length out) oc ts') ++ st) ch) (Op (List.length ts') op)
           = Ok (mkF (out ++ [Const (List.length oc)]) (oc ++ [oeval O (List.length is) op (map (at_ oc) is)])
                  (mkFrame (List.length out) true (oeval O (List.length is) op (map (at_ oc) is)) :: st) true))
    \/ (not_foldable oc op ts'
        /\ step (mkF (out ++ flat_map flatten ts') oc (rev (frames_for (List.length out) oc ts') ++ st) ch) (Op (List.length ts') op)
           = Ok (mkF ((out ++ flat_map flatten ts') ++ [Op (List.length ts') op]) oc
                   (mkFrame (List.length out) false (fzero F) :: st) ch)).
  Proof.
    cbn [tree_ok]. intros (H1 & H2 & H3). unfold step. cbn [fold_step]. destruct (Nat.leb_spec (List.length ts') D); [|lia]. cbn [assert_ bind fo_stack].
    assert (Ep : popn (List.length ts') (rev (frames_for (List.length out) oc ts') ++ st) = Some (frames_for (List.length out) oc ts', st))
      by (rewrite <- (frames_length (List.length out) oc ts') at 1; apply popn_app).
    rewrite Ep. clear Ep.
    destruct ts' as [|t0 ts0]; [cbn in H1; lia|]. cbn [frames_for].
    change (frame_for (List.length out) oc t0 :: frames_for (List.length out + tsize t0) oc ts0) with (frames_for (List.length out) oc (t0 :: ts0)).
    assert (Hst : f_start (frame_for (List.length out) oc t0) = List.length out) by (destruct t0; reflexivity). rewrite Hst.
    unfold keep_node. cbn [fo_nodes fo_consts fo_changed].
    rewrite frames_const. destruct (forallb is_tc (t0 :: ts0)) eqn:Etc; cbn [negb].
    2:{ right. split; [|reflexivity]. intros is E. exfalso. rewrite E in Etc. clear -Etc. induction is; cbn in *; auto; discriminate. }
    apply all_tc in Etc as [is Eis]. rewrite Eis, frames_vals.
    destruct (existsb (fun v => negb (ffinite F v)) (map (at_ oc) is)) eqn:Ee.
    { right. split; [|reflexivity]. intros is' E Hf. exfalso.
      assert (is' = is). { clear -E. revert is' E; induction is; intros [|] E; cbn in *; try discriminate; auto. injection E as -> E. f_equal. auto. } subst is'.
      apply existsb_exists in Ee as (v & Hv & Hn). rewrite forallb_forall in Hf. apply Hf in Hv. rewrite Hv in Hn. discriminate. }
    assert (Hfin : forallb (ffinite F) (map (at_ oc) is) = true).
    { apply forallb_forall. intros v Hv. destruct (ffinite F v) eqn:Ev; auto. exfalso.
      assert (existsb (fun v => negb (ffinite F v)) (map (at_ oc) is) = true) by (apply existsb_exists; exists v; rewrite Ev; auto). congruence. }
    assert (Hl : List.length (t0 :: ts0) = List.length is) by (rewrite Eis; apply map_length).
    destruct (ops_eval_const (List.length (t0 :: ts0)) op (map (at_ oc) is)) as (o1 & ok & Eo & v & Ev & Eok & Hv); auto.
    { now rewrite map_length. }
    rewrite Eis in Eo at 1. rewrite map_length in Eo. rewrite map_length. rewrite Eo. cbn [bind]. rewrite Ev. cbn [bind]. rewrite Eok.
    rewrite Hl. rewrite Hl in Hv.
    destruct (ffinite F (oeval O (List.length is) op (map (at_ oc) is))) eqn:Er; cbn [negb].
    2:{ right. split; [|reflexivity]. intros is' E Hf Hr. exfalso.
        assert (is' = is). { clear -E. revert is' E; induction is; intros [|] E; cbn in *; try discriminate; auto. injection E as -> E. f_equal. auto. } subst is'. congruence. }
    destruct (Nat.ltb_spec u16_max (List.length oc)).
    { right. split; [|reflexivity]. intros is' E Hf Hr. right. unfold cap. lia. }
    left. exists is. split; auto. split; auto. split; auto. split; [unfold cap; lia|].
    rewrite (Hv eq_refl). rewrite firstn_app, firstn_all, Nat.sub_diag. cbn [firstn]. rewrite app_nil_r. reflexivity.
  Qed.

  Lemma fold_tree t : Ptree t.
  Proof.
    induction t as [v|i|op ts IH] using tree_ind'; intros out oc st ch Hok.
    - exists (TVar v), []. rewrite app_nil_r, orb_false_r. split; [reflexivity|]. cbn in Hok.
      split. { split; [exact Hok|]. split; auto. split; auto. left. intros op is Hs. inversion Hs. }
      repeat split; auto; cbn; try lia. constructor.
    - cbn in Hok. exists (TConst i), []. rewrite app_nil_r, orb_false_r. split.
      { cbn [flatten foldM step fold_step fo_consts]. unfold step. cbn [fold_step fo_consts]. unfold index. rewrite (nth_error_nth' oc d) by auto. reflexivity. }
      split. { split; [exact Hok|]. split; auto. split; auto. left. intros op is Hs. inversion Hs. }
      repeat split; auto; cbn; try lia. constructor.
    - cbn [flatten]. rewrite foldM_app. pose proof Hok as Hok0. cbn [tree_ok] in Hok. destruct Hok as (K1 & K2 & K3). rewrite fold_right_and_Forall in K3.
      destruct (Ptrees ts IH out oc st ch K3) as (ts' & new & E & HG & HN & HF & HS & HL & HX). rewrite E. cbn [bind].
      pose proof (Forall2_len _ _ _ HG) as Hlen.
      assert (Hok' : tree_ok D nf (List.length (oc ++ new)) known (TOp op ts')).
      { cbn [tree_ok]. rewrite <- Hlen. split; auto. split; auto. rewrite fold_right_and_Forall. eapply good_children_ok; eauto. }
      assert (Hcv : List.length oc + tsize (TOp op ts) <= cap -> 
        all_some (map (cval F O (at_ oc)) ts) = if forallb is_tc ts' then Some (map (fun t => match t with TConst k => at_ (oc ++ new) k | _ => at_ oc 0 end) ts') else None).
      { intros Hc. apply folded_children_cval; [apply HX; cbn [tsize] in Hc; lia|].
        intros i Hi. symmetry. apply at_app. apply flat_ids in Hi as (t & Ht & Hi). rewrite Forall_forall in K3. exact (tree_ok_ids _ _ _ _ _ (K3 t Ht) i Hi). }
      cbn [foldM]. rewrite Hlen.
      destruct (step_op out (oc ++ new) st (ch || negb (List.length new =? 0)) op ts' Hok') as [(is & Eis & Hf & Hr & Hc & Es)|(Hnf & Es)].
      + rewrite Es. cbn [bind]. set (v := oeval O (List.length is) op (map (at_ (oc ++ new)) is)) in *.
        exists (TConst (List.length (oc ++ new))), (new ++ [v]). rewrite app_assoc.
        assert (Hat : at_ ((oc ++ new) ++ [v]) (List.length (oc ++ new)) = v).
        { unfold at_. rewrite app_nth2 by lia. rewrite Nat.sub_diag. reflexivity. }
        assert (Hli : List.length ts = List.length is) by (rewrite Hlen, Eis; apply map_length).
        split. { cbn [flatten frame_for]. rewrite Hat. replace (List.length (new ++ [v]) =? 0) with false by (rewrite app_length; cbn; symmetry; apply Nat.eqb_neq; lia). cbn [negb]. rewrite orb_true_r. reflexivity. }
        split. { unfold good. cbn [tree_ok teval tsize]. split; [rewrite !app_length; cbn [List.length]; lia|].
          split. { intros var. rewrite Hat. rewrite <- (good_children_eval _ _ _ _ var HG), Eis, map_map. cbn [teval]. rewrite Hli. reflexivity. }
          split; [lia|]. left. intros p is' Hs. inversion Hs. }
        split. { intros E'. destruct new; discriminate. }
        split. { apply Forall_app; split; auto. }
        split. { cbn [tsize]. rewrite Eis in HS. rewrite map_map in HS. cbn [tsize] in HS.
          assert (Hsum : sum_list (map (fun _ : nat => 1) is) = List.length is) by (clear; induction is; cbn; auto).
          rewrite Hsum in HS. rewrite app_length. cbn [List.length]. lia. }
        split. { rewrite app_length. cbn [List.length]. lia. }
        intros Hcap. constructor. cbn [cval]. rewrite (Hcv Hcap), Hat.
        rewrite Eis. assert (Htc : forallb is_tc (map TConst is) = true) by (clear; induction is; cbn; auto). rewrite Htc, map_map, Hli.
        change (map (fun x => at_ (oc ++ new) x) is) with (map (at_ (oc ++ new)) is). rewrite Hf. fold v. rewrite Hr. reflexivity.
      + rewrite Es. cbn [bind]. exists (TOp op ts'), new. cbn [flatten]. rewrite app_assoc. split; [reflexivity|].
        split. { apply good_keep; auto. lia. }
        split. { intros ->. now rewrite HN. }
        split; auto. split; [cbn [tsize]; lia|]. split; auto.
        intros Hcap. apply fd_keep; [|apply HX; cbn [tsize] in Hcap; lia].
        cbn [cval]. rewrite (Hcv Hcap). destruct (forallb is_tc ts') eqn:Etc; auto.
        apply all_tc in Etc as [is ->]. rewrite map_map.
        change (map (fun x => at_ (oc ++ new) x) is) with (map (at_ (oc ++ new)) is).
        assert (Hli : List.length ts = List.length is) by (rewrite Hlen; apply map_length). rewrite Hli.
        destruct (forallb (ffinite F) (map (at_ (oc ++ new)) is)) eqn:Ef; auto. cbn [andb].
        destruct (ffinite F (oeval O (List.length is) op (map (at_ (oc ++ new)) is))) eqn:Er; auto.
        exfalso. destruct (Hnf is eq_refl Ef Er) as [->|Hc].
        * cbn in Hli. lia.
        * rewrite app_length in Hc. cbn [tsize] in Hcap.
          assert (Hsum : sum_list (map tsize (map TConst is)) = List.length is) by (clear; induction is; cbn; auto).
          rewrite Hsum in HS. destruct is; [cbn in Hli; lia|]. cbn in HS. lia.
  Qed.

  Theorem simplify_tree_spec (e : expr T) t : represents e t -> tree_ok D nf (List.length (consts e)) known t ->
    exists e' ch t' new, simplify_tree_in_place F O D o e = Ok (e', ch)
      /\ represents e' t' /\ consts e' = consts e ++ new /\ var_names e' = var_names e
      /\ good (consts e) (consts e') t t'
      /\ (ch = false -> e' = e) /\ (ch = true -> tsize t' < tsize t /\ new <> [])
      /\ Forall (fun v => ffinite F v = true) new
      /\ tsize t' + List.length new <= tsize t
      /\ List.length (consts e') <= Nat.max (List.length (consts e)) cap
      /\ (List.length (consts e) + tsize t <= cap -> folded F O (at_ (consts e)) (at_ (consts e')) t t').
  Proof.
    intros Hr Hok. unfold simplify_tree_in_place, represents in *. rewrite Hr.
    destruct (fold_tree t [] (consts e) [] false Hok) as (t' & new & E & HG & HN & HF & HS & HL & HX).
    unfold step in E. rewrite E. cbn [bind fo_changed orb app fo_nodes fo_consts].
    destruct new as [|v new]; cbn [List.length Nat.eqb negb].
    - rewrite app_nil_r in *. rewrite (HN eq_refl) in *. exists e, false, t, []. rewrite app_nil_r. split; [reflexivity|]. split; [auto|].
      split; [auto|]. split; [auto|]. split; [exact HG|]. split; [auto|]. split; [discriminate|]. split; [constructor|]. cbn. auto.
    - exists (mkExpr (flatten t') (consts e ++ v :: new) (var_names e)), true, t', (v :: new). split; [reflexivity|].
      cbn [nodes consts var_names]. split; [auto|]. split; auto. split; auto. split; auto. split; [discriminate|].
      split; [|split; auto]. intros _. cbn in HS. split; [lia|discriminate].
  Qed.
End Fold.
