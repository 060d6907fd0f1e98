(** Proofs about constant access, compression and expression algebra. *)
From Verif Require Import Base BaseLemmas Node Tree NodeProofs Utils.

(** Specification of compression: indices in order of first use, and renaming by position. *)
Fixpoint const_ids (ns : list pnode) : list nat :=
  match ns with
  | [] => []
  | Const i :: ns' => i :: const_ids ns'
  | _ :: ns' => const_ids ns'
  end.

(** Keep the first occurrence of each element, in order. *)
Fixpoint first_uses_from (seen l : list nat) : list nat :=
  match l with
  | [] => seen
  | i :: l' => first_uses_from (if existsb (Nat.eqb i) seen then seen else seen ++ [i]) l'
  end.
Definition first_uses (ns : list pnode) : list nat := first_uses_from [] (const_ids ns).

(** Position of [i] in [l] (its length when absent). *)
Fixpoint pos (i : nat) (l : list nat) : nat :=
  match l with [] => 0 | j :: l' => if i =? j then 0 else S (pos i l') end.

Definition rename_node (u : list nat) (n : pnode) : pnode :=
  match n with Const i => Const (pos i u) | _ => n end.

Fixpoint rename_tree (f : nat -> nat) (t : tree) : tree :=
  match t with
  | TVar v => TVar v
  | TConst i => TConst (f i)
  | TOp op ts => TOp op (map (rename_tree f) ts)
  end.

Definition rename_pnode (f : nat -> nat) (n : pnode) : pnode :=
  match n with Const i => Const (f i) | _ => n end.

Lemma flatten_rename f t : flatten (rename_tree f t) = map (rename_pnode f) (flatten t).
Proof.
  induction t as [v|i|op ts IH] using tree_ind'; cbn [rename_tree flatten map rename_pnode]; auto.
  rewrite map_app, map_length. cbn. f_equal.
  induction IH as [|c cs Hc _ IHcs]; cbn; auto. rewrite map_app. congruence.
Qed.

Lemma teval_rename {T} (O : OpSet T) var cst f t :
  teval O var cst (rename_tree f t) = teval O var (fun i => cst (f i)) t.
Proof.
  induction t as [v|i|op ts IH] using tree_ind'; cbn [rename_tree teval]; auto.
  rewrite map_length, map_map. f_equal. apply map_ext_in. rewrite Forall_forall in IH. auto.
Qed.

Lemma teval_ext {T} (O : OpSet T) var cst cst' t :
  (forall i, In i (const_ids (flatten t)) -> cst i = cst' i) -> teval O var cst t = teval O var cst' t.
Proof.
  induction t as [v|i|op ts IH] using tree_ind'; cbn [teval flatten const_ids]; intros H; auto.
  - apply H. left; auto.
  - f_equal. apply map_ext_in. intros c Hc. rewrite Forall_forall in IH. apply IH; auto.
    intros i Hi. apply H. clear -Hc Hi.
    assert (Happ : forall a b, const_ids (a ++ b) = const_ids a ++ const_ids b).
    { induction a as [|[] a IH]; intros b; cbn; auto. now rewrite IH. }
    rewrite Happ. apply in_or_app. left.
    induction ts as [|d ts IH]; cbn in *; [tauto|]. rewrite Happ. apply in_or_app.
    destruct Hc as [->|Hc]; [left|right]; auto.
Qed.

Lemma const_ids_app a b : const_ids (a ++ b) = const_ids a ++ const_ids b.
Proof. induction a as [|[] a IH]; cbn; auto. now rewrite IH. Qed.

Lemma existsb_eqb i l : existsb (Nat.eqb i) l = true <-> In i l.
Proof.
  rewrite existsb_exists. split.
  - intros (x & H & E). apply Nat.eqb_eq in E. congruence.
  - intros H. exists i. split; auto. apply Nat.eqb_refl.
Qed.

Lemma pos_lt i l : In i l -> pos i l < List.length l.
Proof.
  induction l as [|j l IH]; cbn; [tauto|]. intros H. destruct (Nat.eqb_spec i j); [lia|].
  destruct H as [->|H]; [congruence|]. specialize (IH H). lia.
Qed.

Lemma pos_app i l m : In i l -> pos i (l ++ m) = pos i l.
Proof.
  induction l as [|j l IH]; cbn; [tauto|]. intros H. destruct (Nat.eqb_spec i j); auto.
  destruct H as [->|H]; [congruence|]. rewrite IH; auto.
Qed.

Lemma pos_new i l m : ~ In i l -> pos i (l ++ i :: m) = List.length l.
Proof.
  induction l as [|j l IH]; cbn; intros H; [now rewrite Nat.eqb_refl|].
  destruct (Nat.eqb_spec i j); [subst; tauto|]. rewrite IH; tauto.
Qed.

Lemma pos_nth i l : In i l -> nth_error l (pos i l) = Some i.
Proof.
  induction l as [|j l IH]; cbn; [tauto|]. intros H. destruct (Nat.eqb_spec i j); [subst; auto|].
  cbn. apply IH. destruct H; congruence.
Qed.

Lemma first_uses_from_app seen a b : first_uses_from seen (a ++ b) = first_uses_from (first_uses_from seen a) b.
Proof. revert seen; induction a as [|i a IH]; intros seen; cbn; auto. Qed.

Lemma first_uses_from_in l : forall seen i, In i (first_uses_from seen l) <-> In i seen \/ In i l.
Proof.
  induction l as [|j l IH]; intros seen i; cbn; [tauto|]. rewrite IH.
  destruct (existsb (Nat.eqb j) seen) eqn:E.
  - apply existsb_eqb in E. split; [tauto|]. intros [H|[->|H]]; auto.
  - rewrite in_app_iff. cbn. tauto.
Qed.

Lemma first_uses_from_prefix l : forall seen, exists r, first_uses_from seen l = seen ++ r.
Proof.
  induction l as [|j l IH]; intros seen; cbn; [exists []; now rewrite app_nil_r|].
  destruct (existsb _ seen); [apply IH|]. destruct (IH (seen ++ [j])) as [r ->].
  exists (j :: r). now rewrite <- app_assoc.
Qed.

Lemma nodup_snoc {A} (l : list A) x : NoDup l -> ~ In x l -> NoDup (l ++ [x]).
Proof.
  induction 1 as [|y l Hy Hl IH]; cbn; intros Hx; [constructor; auto; constructor|].
  constructor; [|apply IH; tauto]. rewrite in_app_iff. cbn. intuition.
Qed.

Lemma first_uses_from_nodup l : forall seen, NoDup seen -> NoDup (first_uses_from seen l).
Proof.
  induction l as [|j l IH]; intros seen H; cbn; auto. apply IH.
  destruct (existsb (Nat.eqb j) seen) eqn:E; auto.
  apply nodup_snoc; auto. rewrite <- existsb_eqb. congruence.
Qed.

Section Compress.
  Context {T : Type} (d : T).

  Definition gather (old : list T) (u : list nat) : list T := map (fun i => nth i old d) u.

  (** The loop state after a prefix [pre] of the nodes. *)
  Definition zinv (old : list T) (pre : list pnode) (s : zstate T) : Prop :=
    let u := first_uses pre in
    z_out s = map (rename_node u) pre
    /\ z_consts s = gather old u
    /\ List.length (z_remap s) = List.length old
    /\ (forall i, i < List.length old -> nth_error (z_remap s) i = Some (if existsb (Nat.eqb i) u then pos i u else sentinel))
    /\ List.length u <= sentinel
    /\ z_changed s = existsb (fun i => negb (i =? pos i u)) (const_ids pre).

  Lemma rename_stable u v pre : (forall i, In i (const_ids pre) -> In i u) ->
    map (rename_node (u ++ v)) pre = map (rename_node u) pre.
  Proof.
    intros H. induction pre as [|n pre IH]; cbn; auto. f_equal.
    - destruct n; cbn; auto. rewrite pos_app; auto. apply H. cbn; auto.
    - apply IH. intros i Hi. apply H. destruct n; cbn; auto.
  Qed.

  Lemma changed_stable u v l : (forall i, In i l -> In i u) ->
    existsb (fun i => negb (i =? pos i (u ++ v))) l = existsb (fun i => negb (i =? pos i u)) l.
  Proof.
    intros H. induction l as [|i l IH]; cbn; auto. rewrite pos_app by (apply H; cbn; auto).
    f_equal. apply IH. intros; apply H; cbn; auto.
  Qed.

  Lemma first_uses_snoc pre n : first_uses (pre ++ [n]) =
    match n with Const i => if existsb (Nat.eqb i) (first_uses pre) then first_uses pre else first_uses pre ++ [i] | _ => first_uses pre end.
  Proof. unfold first_uses. rewrite const_ids_app, first_uses_from_app. destruct n; reflexivity. Qed.

  Lemma first_uses_in pre i : In i (first_uses pre) <-> In i (const_ids pre).
  Proof. unfold first_uses. rewrite first_uses_from_in. cbn. tauto. Qed.

  Lemma compress_step_ok old pre n s :
    zinv old pre s -> (forall i, n = Const i -> i < List.length old) ->
    List.length (first_uses (pre ++ [n])) <= sentinel ->
    exists s', compress_step old s n = Ok s' /\ zinv old (pre ++ [n]) s'.
  Proof.
    intros (Ho & Hc & Hl & Hr & Hs & Hch) Hi Hlen.
    assert (Hin : forall i, In i (const_ids pre) -> In i (first_uses pre)) by (intros; now apply first_uses_in).
    destruct n as [f|idx|a op].
    - eexists; split; [reflexivity|]. unfold zinv. cbn zeta. rewrite first_uses_snoc, map_app, const_ids_app. cbn.
      rewrite Ho, app_nil_r. repeat split; auto.
    - specialize (Hi idx eq_refl). cbn [compress_step]. unfold index at 1. rewrite (Hr idx Hi). cbn [expect bind].
      rewrite first_uses_snoc in Hlen.
      destruct (existsb (Nat.eqb idx) (first_uses pre)) eqn:E.
      + assert (Hu : In idx (first_uses pre)) by (now apply existsb_eqb).
        pose proof (pos_lt _ _ Hu).
        destruct (Nat.eqb_spec (pos idx (first_uses pre)) sentinel); [lia|]. cbn [bind].
        unfold index. rewrite (Hr idx Hi), E. cbn [expect bind].
        eexists; split; [reflexivity|]. unfold zinv. cbn zeta. rewrite first_uses_snoc, E, map_app, const_ids_app. cbn.
        rewrite Ho, existsb_app. cbn. rewrite Hch, orb_false_r. repeat split; auto.
      + rewrite Nat.eqb_refl. rewrite Hc. unfold gather. rewrite map_length.
        rewrite app_length in Hlen. cbn in Hlen.
        destruct (Nat.leb_spec sentinel (List.length (first_uses pre))); [lia|].
        unfold set_index. rewrite Hl. destruct (Nat.ltb_spec idx (List.length old)); [|lia]. cbn [bind].
        unfold index at 1. rewrite (nth_error_nth' old d) by auto. cbn [expect bind z_remap z_out z_consts z_changed].
        unfold index. rewrite nth_error_upd_same by lia. cbn [expect bind].
        assert (Hnu : ~ In idx (first_uses pre)) by (rewrite <- existsb_eqb; congruence).
        eexists; split; [reflexivity|]. unfold zinv. cbn zeta. rewrite first_uses_snoc, E, map_app, const_ids_app. cbn [z_out z_remap z_consts z_changed map const_ids rename_node].
        rewrite rename_stable by auto. rewrite pos_new by auto. rewrite Ho.
        split; auto. split; [unfold gather; rewrite map_app; reflexivity|]. split; [now rewrite upd_length|].
        split.
        * intros i Hi'. destruct (Nat.eq_dec i idx) as [->|Hne].
          -- rewrite nth_error_upd_same by lia. rewrite existsb_app. cbn. rewrite Nat.eqb_refl, orb_true_r, pos_new; auto.
          -- rewrite nth_error_upd_other by auto. rewrite Hr by auto. rewrite existsb_app. cbn.
             destruct (Nat.eqb_spec i idx); [congruence|]. rewrite !orb_false_r.
             destruct (existsb (Nat.eqb i) (first_uses pre)) eqn:Ei; auto. rewrite pos_app; auto. now apply existsb_eqb.
        * split; [rewrite app_length; cbn; lia|].
          rewrite existsb_app, changed_stable by auto. cbn. rewrite pos_new, orb_false_r by auto. rewrite Hch. reflexivity.
    - eexists; split; [reflexivity|]. unfold zinv. cbn zeta. rewrite first_uses_snoc, map_app, const_ids_app. cbn.
      rewrite Ho, app_nil_r. repeat split; auto.
  Qed.

  Lemma first_uses_app_len pre ns : List.length (first_uses pre) <= List.length (first_uses (pre ++ ns)).
  Proof.
    unfold first_uses. rewrite const_ids_app, first_uses_from_app.
    destruct (first_uses_from_prefix (const_ids ns) (first_uses_from [] (const_ids pre))) as [r ->].
    rewrite app_length. lia.
  Qed.

  Lemma compress_loop old ns : forall pre s,
    zinv old pre s -> (forall i, In i (const_ids ns) -> i < List.length old) ->
    List.length (first_uses (pre ++ ns)) <= sentinel ->
    exists s', foldM (compress_step old) ns s = Ok s' /\ zinv old (pre ++ ns) s'.
  Proof.
    induction ns as [|n ns IH]; intros pre s Hz Hi Hl; cbn [foldM].
    - rewrite app_nil_r. eauto.
    - destruct (compress_step_ok old pre n s Hz) as (s1 & -> & Hz1).
      { intros i ->. apply Hi. cbn; auto. }
      { pose proof (first_uses_app_len (pre ++ [n]) ns). rewrite <- app_assoc in H. cbn in H. lia. }
      cbn [bind]. destruct (IH (pre ++ [n]) s1 Hz1) as (s' & E & Hz').
      { intros i Hin. apply Hi. destruct n; cbn; auto. }
      { rewrite <- app_assoc. exact Hl. }
      exists s'. split; auto. rewrite <- app_assoc in Hz'. exact Hz'.
  Qed.

  Definition compressed (e : expr T) : expr T :=
    mkExpr (map (rename_node (first_uses (nodes e))) (nodes e)) (gather (consts e) (first_uses (nodes e))) (var_names e).

  Lemma compress_spec e :
    (forall i, In i (const_ids (nodes e)) -> i < List.length (consts e)) ->
    List.length (first_uses (nodes e)) <= u16_max ->
    exists b, compress_constants e = Ok (compressed e, b)
      /\ b = existsb (fun i => negb (i =? pos i (first_uses (nodes e)))) (const_ids (nodes e))
             || negb (List.length (first_uses (nodes e)) =? List.length (consts e)).
  Proof.
    intros Hi Hl. unfold compress_constants.
    destruct (compress_loop (consts e) (nodes e) [] (mkZ [] (fill (List.length (consts e)) sentinel) [] false)) as (s & -> & Hz).
    - unfold zinv. cbn. unfold fill. repeat split; auto with arith; [apply repeat_length|].
      intros i Hi'. apply repeat_nth_error; auto.
    - auto.
    - exact Hl.
    - destruct Hz as (Ho & Hc & _ & _ & _ & Hch). cbn [bind app] in *.
      rewrite Ho, Hc, Hch. unfold gather at 2. rewrite map_length. eexists; split; reflexivity.
  Qed.

  Lemma rename_node_pnode u n : rename_node u n = rename_pnode (fun i => pos i u) n.
  Proof. destruct n; reflexivity. Qed.

  (** An expression whose constants are used once in index order is left alone. *)
  Lemma first_uses_seq_iff ns m :
    first_uses ns = seq 0 m -> Forall (fun i => i < m) (const_ids ns).
  Proof.
    intros H. apply Forall_forall. intros i Hi. apply first_uses_in in Hi. rewrite H in Hi. apply in_seq in Hi. lia.
  Qed.

  Lemma pos_seq i s m : s <= i < s + m -> pos i (seq s m) = i - s.
  Proof.
    revert s; induction m as [|m IH]; intros s H; cbn; [lia|].
    destruct (Nat.eqb_spec i s); [lia|]. rewrite IH by lia. lia.
  Qed.

  Lemma const_ids_rename u ns : const_ids (map (rename_node u) ns) = map (fun i => pos i u) (const_ids ns).
  Proof. induction ns as [|[] ns IH]; cbn; auto. now rewrite IH. Qed.

  Lemma pos_inj u i j : In i u -> In j u -> pos i u = pos j u -> i = j.
  Proof.
    intros Hi Hj E. apply pos_nth in Hi, Hj. rewrite E in Hi. congruence.
  Qed.

  (** Renaming by position turns first uses into 0, 1, 2, ... *)
  Lemma first_uses_renamed_from l : forall seen u,
    (forall i, In i seen -> In i u) -> (forall i, In i l -> In i u) ->
    first_uses_from (map (fun i => pos i u) seen) (map (fun i => pos i u) l)
    = map (fun i => pos i u) (first_uses_from seen l).
  Proof.
    induction l as [|j l IH]; intros seen u Hs Hl; cbn; auto.
    assert (E : existsb (Nat.eqb (pos j u)) (map (fun i => pos i u) seen) = existsb (Nat.eqb j) seen).
    { apply eq_true_iff_eq. rewrite !existsb_eqb, in_map_iff. split.
      - intros (x & Ex & Hx). apply pos_inj in Ex; auto; [subst; auto|apply Hl; cbn; auto].
      - intros H. eauto. }
    rewrite E. destruct (existsb (Nat.eqb j) seen).
    - apply IH; auto. intros; apply Hl; cbn; auto.
    - change (map (fun i => pos i u) seen ++ [pos j u]) with (map (fun i => pos i u) seen ++ map (fun i => pos i u) [j]).
      rewrite <- map_app. apply IH.
      + intros i Hi. apply in_app_or in Hi as [Hi|[<-|[]]]; auto. apply Hl; cbn; auto.
      + intros; apply Hl; cbn; auto.
  Qed.

  Lemma map_pos_self u : NoDup u -> map (fun i => pos i u) u = seq 0 (List.length u).
  Proof.
    intros H. apply nth_error_ext. intros k. rewrite nth_error_map.
    destruct (Nat.lt_ge_cases k (List.length u)) as [Hk|Hk].
    - destruct (nth_error u k) as [i|] eqn:E; [|apply nth_error_None in E; lia]. cbn.
      assert (pos i u = k).
      { rewrite NoDup_nth_error in H. apply H.
        - apply pos_lt. eapply nth_error_In; eauto.
        - rewrite pos_nth by (eapply nth_error_In; eauto). auto. }
      rewrite H0. rewrite (nth_error_nth' (seq 0 (List.length u)) 0) by (rewrite seq_length; auto). rewrite seq_nth by auto. reflexivity.
    - rewrite (proj2 (nth_error_None u k)) by auto. cbn. symmetry. apply nth_error_None. rewrite seq_length. auto.
  Qed.

  Lemma first_uses_compressed e : first_uses (nodes (compressed e)) = seq 0 (List.length (first_uses (nodes e))).
  Proof.
    unfold first_uses at 1. cbn [compressed nodes]. rewrite const_ids_rename.
    change (@nil nat) with (map (fun i => pos i (first_uses (nodes e))) []).
    rewrite first_uses_renamed_from.
    - fold (first_uses (nodes e)). apply map_pos_self. apply first_uses_from_nodup. constructor.
    - cbn; tauto.
    - intros i Hi. now apply first_uses_in.
  Qed.

  Lemma compressed_fix e : first_uses (nodes e) = seq 0 (List.length (consts e)) -> compressed e = e.
  Proof.
    intros H. unfold compressed. rewrite H. destruct e as [ns cs vn]. cbn [nodes consts var_names] in *. f_equal.
    - rewrite <- map_id. apply map_ext_in. intros n Hn. destruct n as [f|i|a o]; auto. cbn. f_equal.
      assert (In i (const_ids ns)).
      { clear -Hn. induction ns as [|m ns IH]; cbn in *; [tauto|]. destruct Hn as [->|Hn]; cbn; auto.
        destruct m; cbn; auto. }
      apply first_uses_in in H0. rewrite H in H0. apply in_seq in H0. rewrite pos_seq by lia. lia.
    - unfold gather. clear. induction cs as [|c cs IH] using rev_ind; auto.
      rewrite app_length, seq_app, map_app. cbn. f_equal.
      + rewrite <- IH at 2. apply map_ext_in. intros i Hi. apply in_seq in Hi. rewrite app_nth1 by lia. reflexivity.
      + rewrite app_nth2 by lia. rewrite Nat.sub_diag. reflexivity.
  Qed.

  Lemma compressed_eq_iff e :
    (forall i, In i (const_ids (nodes e)) -> i < List.length (consts e)) ->
    compressed e = e <->
    existsb (fun i => negb (i =? pos i (first_uses (nodes e)))) (const_ids (nodes e))
    || negb (List.length (first_uses (nodes e)) =? List.length (consts e)) = false.
  Proof.
    intros Hlt. rewrite orb_false_iff, negb_false_iff, Nat.eqb_eq. split.
    - intros E. split.
      + destruct (existsb _ _) eqn:Ex; auto. apply existsb_exists in Ex as (i & Hi & Hn).
        exfalso. apply negb_true_iff, Nat.eqb_neq in Hn. apply Hn.
        pose proof (first_uses_compressed e) as Hf. rewrite E in Hf.
        apply first_uses_in in Hi. rewrite Hf in Hi |- *. apply in_seq in Hi. rewrite pos_seq by lia. lia.
      + rewrite <- E at 2. cbn. unfold gather. now rewrite map_length.
    - intros [H1 H2]. apply compressed_fix. rewrite <- H2.
      assert (Hn : NoDup (first_uses (nodes e))) by (apply first_uses_from_nodup; constructor).
      rewrite <- (map_pos_self _ Hn). symmetry. rewrite <- map_id. apply map_ext_in. intros i Hi.
      apply first_uses_in in Hi.
      destruct (Nat.eqb_spec i (pos i (first_uses (nodes e)))); auto. exfalso.
      assert (existsb (fun i => negb (i =? pos i (first_uses (nodes e)))) (const_ids (nodes e)) = true); [|congruence].
      apply existsb_exists. exists i. split; auto. apply negb_true_iff, Nat.eqb_neq. auto.
  Qed.
End Compress.

(** Setting constants. *)
Section SetConsts.
  Context {T : Type}.

  Lemma set_consts_loop_spec (vs : list T) : forall k m pre cs,
    List.length pre = m -> List.length vs = m + k -> List.length cs = k -> firstn m vs = pre ->
    set_consts_loop (seq m k) m vs (pre ++ cs) = Ok vs.
  Proof.
    induction k as [|k IH]; intros m pre cs Hp Hv Hc Hf; cbn [seq set_consts_loop].
    - destruct cs; [|discriminate]. rewrite app_nil_r, <- Hf. f_equal. rewrite firstn_all2; auto. lia.
    - destruct cs as [|c cs]; [discriminate|].
      unfold index. destruct (nth_error vs m) as [v|] eqn:E; [|apply nth_error_None in E; lia]. cbn [expect bind].
      unfold set_index. rewrite app_length. cbn [List.length]. destruct (Nat.ltb_spec m (List.length pre + S (List.length cs))); [|lia].
      cbn [bind]. replace (upd (pre ++ c :: cs) m v) with (pre ++ v :: cs) by (rewrite <- Hp; now rewrite upd_middle).
      replace (pre ++ v :: cs) with ((pre ++ [v]) ++ cs) by (now rewrite <- app_assoc).
      apply IH.
      + rewrite app_length; cbn; lia.
      + lia.
      + cbn in Hc; lia.
      + rewrite <- Hf. clear -E. revert vs E; induction m as [|m IH]; intros [|x vs] E; cbn in *; try discriminate; [congruence|].
        f_equal. apply IH; auto.
  Qed.
End SetConsts.

(** Expression algebra. *)
Section Algebra.
  Context {T : Type}.

  Definition shift_pnode (off : nat) (n : pnode) : pnode := rename_pnode (fun i => i + off) n.

  Lemma shift_nodes_ok off ns : (forall i, In i (const_ids ns) -> i + off <= u16_max) ->
    mapM (shift_node off) ns = Ok (map (shift_pnode off) ns).
  Proof.
    intros H. apply mapM_map. intros n Hn. destruct n as [f|i|a o]; cbn; auto.
    destruct (Nat.leb_spec (i + off) u16_max); auto. exfalso.
    assert (In i (const_ids ns)).
    { clear -Hn. induction ns as [|m ns IH]; cbn in *; [tauto|]. destruct Hn as [->|Hn]; cbn; auto. destruct m; cbn; auto. }
    apply H in H1. lia.
  Qed.

  Fixpoint shifted_trees (off : nat) (es : list (expr T)) (ts : list tree) : list tree :=
    match es, ts with
    | e :: es', t :: ts' => rename_tree (fun i => i + off) t :: shifted_trees (off + List.length (consts e)) es' ts'
    | _, _ => []
    end.

  Definition all_consts (es : list (expr T)) : list T := flat_map consts es.

  Lemma apply_loop_spec es ts :
    Forall2 represents es ts ->
    Forall (fun e => forall i, In i (const_ids (nodes e)) -> i < List.length (consts e)) es ->
    forall ns cs names, List.length cs + List.length (all_consts es) <= u16_max ->
    exists names', apply_loop es ns cs names
      = Ok (ns ++ flat_map flatten (shifted_trees (List.length cs) es ts), cs ++ all_consts es, names').
  Proof.
    induction 1 as [|e t es ts He _ IH]; intros Hc ns cs names Hl; cbn [apply_loop shifted_trees flat_map all_consts].
    - rewrite !app_nil_r. eauto.
    - inversion Hc as [|? ? Hc1 Hc2]; subst. cbn [all_consts flat_map] in Hl. rewrite app_length in Hl. fold (all_consts es) in *.
      destruct (Nat.ltb_spec u16_max (List.length cs)); [lia|].
      rewrite shift_nodes_ok by (intros i Hi; apply Hc1 in Hi; lia). cbn [bind].
      edestruct (IH Hc2 (ns ++ map (shift_pnode (List.length cs)) (nodes e)) (cs ++ consts e)) as (nm & ->).
      { rewrite app_length. lia. }
      exists nm. rewrite app_length, <- !app_assoc. unfold represents in He. rewrite He, flatten_rename. reflexivity.
  Qed.

  Lemma shifted_length es ts : forall off, List.length es = List.length ts -> List.length (shifted_trees off es ts) = List.length ts.
  Proof. revert ts; induction es as [|e es IH]; intros [|t ts] off H; cbn in *; try discriminate; auto. Qed.

  Lemma shifted_eval (O : OpSet T) var d es ts : Forall2 represents es ts ->
    Forall (fun e => forall i, In i (const_ids (nodes e)) -> i < List.length (consts e)) es ->
    forall pre,
    map (teval O var (fun i => nth i (pre ++ all_consts es) d)) (shifted_trees (List.length pre) es ts)
    = map (fun et => teval O var (fun i => nth i (consts (fst et)) d) (snd et)) (combine es ts).
  Proof.
    induction 1 as [|e t es ts He _ IH]; intros Hc pre; cbn [shifted_trees map combine all_consts flat_map]; auto.
    inversion Hc as [|? ? Hc1 Hc2]; subst. fold (all_consts es). f_equal.
    - rewrite teval_rename. cbn [fst snd]. apply teval_ext. intros i Hi.
      unfold represents in He. rewrite <- He in Hi. apply Hc1 in Hi.
      rewrite app_nth2 by lia. rewrite app_nth1 by lia. f_equal. lia.
    - rewrite app_assoc. rewrite <- (IH Hc2 (pre ++ consts e)). rewrite app_length. reflexivity.
  Qed.
End Algebra.
