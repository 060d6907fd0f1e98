(** Operator combination (simplify.rs): structure. Valid for every configuration, including operator sets in
    which an operator of another arity shares the id of subtraction. *)
From Verif Require Import Base BaseLemmas Node Tree NodeProofs Compile Eval Utils UtilsProofs PropUtils Simplify FoldProofs.

(** Unfolding of the arena below [id] into a tree. *)
Fixpoint utree (fuel : nat) (ar : list anode) (id : nat) : tree :=
  match fuel with
  | 0 => TVar 0
  | S f =>
      match nth_error ar id with
      | Some (AVar v) => TVar v
      | Some (AConst i) => TConst i
      | Some (AOp a op ch) => TOp op (map (utree f ar) (firstn a ch))
      | None => TVar 0
      end
  end.
Definition ut (ar : list anode) (id : nat) : tree := utree (S id) ar id.

Lemma upd_upd_same {A} (l : list A) p x y : upd (upd l p x) p y = upd l p y.
Proof. revert p; induction l as [|z l IH]; intros [|p]; cbn; auto. now rewrite IH. Qed.
Lemma upd_same_val {A} (l : list A) p x : nth_error l p = Some x -> upd l p x = l.
Proof. revert p; induction l as [|z l IH]; intros [|p]; cbn; intros H; try discriminate; [congruence|]. now rewrite IH. Qed.

Section Weak.
  Context (D nf : nat) (known : nat -> nat -> bool).

  Definition wfn (nc p : nat) (n : anode) : Prop :=
    match n with
    | AVar f => f < nf
    | AConst i => i < nc
    | AOp a op ch => List.length ch = D /\ 1 <= a <= D /\ known a op = true /\ Forall (fun c => c < p) ch
        /\ Forall (fun c => c = 0) (skipn a ch)
    end.
  Definition wfa (nc : nat) (ar : list anode) : Prop := forall p n, nth_error ar p = Some n -> wfn nc p n.

  Lemma wfn_mono nc nc' p n : nc <= nc' -> wfn nc p n -> wfn nc' p n.
  Proof. destruct n; cbn; auto; lia. Qed.
  Lemma wfa_mono nc nc' ar : nc <= nc' -> wfa nc ar -> wfa nc' ar.
  Proof. intros H W p n E. eapply wfn_mono; eauto. Qed.

  Lemma firstn_in {A} k (l : list A) x : In x (firstn k l) -> In x l.
  Proof. intros H. rewrite <- (firstn_skipn k l). apply in_or_app; auto. Qed.

  Lemma utree_fuel nc ar : wfa nc ar -> forall f1 f2 id, id < f1 -> id < f2 -> utree f1 ar id = utree f2 ar id.
  Proof.
    intros W. induction f1 as [|f1 IH]; intros f2 id H1 H2; [lia|]. destruct f2 as [|f2]; [lia|]. cbn [utree].
    destruct (nth_error ar id) as [[v|i|a op ch]|] eqn:E; auto. f_equal. apply map_ext_in. intros c Hc.
    apply firstn_in in Hc. pose proof (W _ _ E) as (_ & _ & _ & Hf & _). rewrite Forall_forall in Hf. specialize (Hf c Hc).
    apply IH; lia.
  Qed.

  Lemma ut_op nc ar id a op ch : wfa nc ar -> nth_error ar id = Some (AOp a op ch) -> ut ar id = TOp op (map (ut ar) (firstn a ch)).
  Proof.
    intros W E. unfold ut at 1. cbn [utree]. rewrite E. f_equal. apply map_ext_in. intros c Hc.
    apply firstn_in in Hc. pose proof (W _ _ E) as (_ & _ & _ & Hf & _). rewrite Forall_forall in Hf. specialize (Hf c Hc).
    eapply utree_fuel; eauto; lia.
  Qed.
  Lemma ut_var ar id v : nth_error ar id = Some (AVar v) -> ut ar id = TVar v.
  Proof. intros E. unfold ut. cbn. now rewrite E. Qed.
  Lemma ut_const ar id i : nth_error ar id = Some (AConst i) -> ut ar id = TConst i.
  Proof. intros E. unfold ut. cbn. now rewrite E. Qed.

  Definition size (ar : list anode) (id : nat) : nat := tsize (ut ar id).
  (** Size of a node under an arena. *)
  Definition nsize (ar : list anode) (n : anode) : nat :=
    match n with AVar _ | AConst _ => 1 | AOp a _ ch => 1 + sum_list (map (size ar) (firstn a ch)) end.

  Lemma size_node nc ar id n : wfa nc ar -> nth_error ar id = Some n -> size ar id = nsize ar n.
  Proof.
    intros W E. destruct n as [v|i|a op ch]; cbn [nsize].
    - unfold size. now rewrite (ut_var _ _ _ E).
    - unfold size. now rewrite (ut_const _ _ _ E).
    - unfold size. rewrite (ut_op nc _ _ _ _ _ W E). cbn [tsize]. rewrite map_map. reflexivity.
  Qed.

  Lemma size_zero nc ar : wfa nc ar -> 0 < List.length ar -> size ar 0 = 1.
  Proof.
    intros W H. destruct (nth_error ar 0) as [n|] eqn:E; [|apply nth_error_None in E; lia].
    rewrite (size_node _ _ _ _ W E). destruct n as [v|i|a op ch]; auto. exfalso.
    apply W in E as (L & Ha & _ & Hf & _). destruct ch; [cbn in L; lia|]. inversion Hf; lia.
  Qed.

  Lemma size_pos ar id : 1 <= size ar id.
  Proof. unfold size. pose proof (tsize_pos (ut ar id)). lia. Qed.

  Definition same_kind (n n' : anode) : Prop :=
    match n, n' with
    | AVar f, AVar f' => f = f'
    | AConst _, AConst _ => True
    | AOp a o _, AOp a' o' _ => a = a' /\ o = o'
    | _, _ => False
    end.

  Lemma same_kind_refl n : same_kind n n.
  Proof. destruct n; cbn; auto. Qed.
  Lemma same_kind_trans a b c : same_kind a b -> same_kind b c -> same_kind a c.
  Proof. destruct a, b, c; cbn; try tauto; intuition congruence. Qed.

  (** The arena evolves: same length, same kinds, sizes do not grow. *)
  Definition ev (nc : nat) (ar : list anode) (nc' : nat) (ar' : list anode) : Prop :=
    List.length ar' = List.length ar /\ nc <= nc' /\ wfa nc' ar'
    /\ (forall p n, nth_error ar p = Some n -> exists n', nth_error ar' p = Some n' /\ same_kind n n')
    /\ (forall p, p < List.length ar -> size ar' p <= size ar p).

  Lemma ev_refl nc ar : wfa nc ar -> ev nc ar nc ar.
  Proof. intros W. repeat split; auto. intros p n E. exists n. split; auto. apply same_kind_refl. Qed.

  Lemma ev_mono nc ar nc' : wfa nc ar -> nc <= nc' -> ev nc ar nc' ar.
  Proof.
    intros W H. split; auto. split; auto. split; [eapply wfa_mono; eauto|]. split; auto.
    intros p n E. exists n. split; auto. apply same_kind_refl.
  Qed.

  Lemma ev_trans n1 a1 n2 a2 n3 a3 : ev n1 a1 n2 a2 -> ev n2 a2 n3 a3 -> ev n1 a1 n3 a3.
  Proof.
    intros (L1 & C1 & W1 & K1 & S1) (L2 & C2 & W2 & K2 & S2). split; [congruence|]. split; [lia|]. split; auto. split.
    - intros p n E. destruct (K1 p n E) as (n' & E' & K). destruct (K2 p n' E') as (n'' & E'' & K').
      exists n''. split; auto. eapply same_kind_trans; eauto.
    - intros p Hp. specialize (S1 p Hp). rewrite <- L1 in Hp. specialize (S2 p Hp). lia.
  Qed.

  Lemma sum_le {A} (f g : A -> nat) l : (forall x, In x l -> f x <= g x) -> sum_list (map f l) <= sum_list (map g l).
  Proof. induction l as [|x l IH]; cbn; intros H; auto. pose proof (H x). specialize (IH (fun y Hy => H y (or_intror Hy))). assert (f x <= g x) by auto. lia. Qed.

  (** Overwriting one node. *)
  Lemma ev_upd nc ar p n n' :
    wfa nc ar -> nth_error ar p = Some n -> wfn nc p n' -> same_kind n n' -> nsize ar n' <= size ar p ->
    ev nc ar nc (upd ar p n').
  Proof.
    intros W E Wn K Hs.
    assert (Hp : p < List.length ar) by (apply nth_error_Some; congruence).
    assert (W' : wfa nc (upd ar p n')).
    { intros q m Em. destruct (Nat.eq_dec q p) as [->|Hne].
      - rewrite nth_error_upd_same in Em by auto. congruence.
      - rewrite nth_error_upd_other in Em by auto. auto. }
    split; [apply upd_length|]. split; auto. split; auto. split.
    - intros q m Em. destruct (Nat.eq_dec q p) as [->|Hne].
      + rewrite nth_error_upd_same by auto. exists n'. split; auto. congruence.
      + rewrite nth_error_upd_other by auto. exists m. split; auto. apply same_kind_refl.
    - intros q. induction q as [q IH] using lt_wf_ind. intros Hq.
      destruct (nth_error ar q) as [m|] eqn:Em; [|apply nth_error_None in Em; lia].
      assert (Hch : forall a op ch, wfn nc q (AOp a op ch) -> nsize (upd ar p n') (AOp a op ch) <= nsize ar (AOp a op ch)).
      { intros a op ch (_ & _ & _ & Hf & _). cbn [nsize]. apply le_n_S. apply sum_le. intros c Hc. apply firstn_in in Hc.
        rewrite Forall_forall in Hf. specialize (Hf c Hc). apply IH; lia. }
      destruct (Nat.eq_dec q p) as [->|Hne].
      + rewrite (size_node nc _ p n') by (auto; now apply nth_error_upd_same).
        destruct n' as [v|i|a op ch]; cbn [nsize] in *; auto.
        specialize (Hch a op ch Wn). cbn [nsize] in Hch. lia.
      + rewrite (size_node nc _ q m) by (auto; rewrite nth_error_upd_other; auto). rewrite (size_node nc ar q m W Em).
        destruct m as [v|i|a op ch]; [auto|auto|]. apply Hch. apply (W _ _ Em).
  Qed.

  (** Overwriting a node by one with smaller children, after work below it only. *)
  Lemma ev_node nc ar nc' ar2 id a op ch ch' :
    ev nc ar nc' ar2 -> wfa nc ar -> nth_error ar id = Some (AOp a op ch) ->
    (forall p, id <= p -> nth_error ar2 p = nth_error ar p) ->
    wfn nc' id (AOp a op ch') ->
    Forall2 (fun c c' => size ar2 c' <= size ar c) (firstn a ch) (firstn a ch') ->
    ev nc ar nc' (upd ar2 id (AOp a op ch')).
  Proof.
    intros Ev W E Hab Wn Hs. pose proof Ev as (L & C & W2 & K & S).
    assert (Hid : id < List.length ar2) by (rewrite L; apply nth_error_Some; congruence).
    set (ar3 := upd ar2 id (AOp a op ch')).
    assert (W3 : wfa nc' ar3).
    { intros q m Em. unfold ar3 in Em. destruct (Nat.eq_dec q id) as [->|Hne].
      - rewrite nth_error_upd_same in Em by auto. congruence.
      - rewrite nth_error_upd_other in Em by auto. auto. }
    assert (Hlow : forall q, q < id -> ut ar3 q = ut ar2 q).
    { intros q. induction q as [q IH] using lt_wf_ind. intros Hq.
      assert (En : nth_error ar3 q = nth_error ar2 q) by (apply nth_error_upd_other; lia).
      destruct (nth_error ar2 q) as [[v|i|b o c]|] eqn:Em; [| | |apply nth_error_None in Em; lia].
      - now rewrite (ut_var _ _ _ Em), (ut_var _ _ _ En).
      - now rewrite (ut_const _ _ _ Em), (ut_const _ _ _ En).
      - rewrite (ut_op _ _ _ _ _ _ W2 Em), (ut_op _ _ _ _ _ _ W3 En). f_equal. apply map_ext_in.
        intros x Hx. apply firstn_in in Hx. apply W2 in Em as (_ & _ & _ & Hf & _). rewrite Forall_forall in Hf. specialize (Hf x Hx). apply IH; lia. }
    split; [unfold ar3; now rewrite upd_length|]. split; auto. split; auto. split.
    - intros q m Em. destruct (K q m Em) as (m' & Em' & Km). destruct (Nat.eq_dec q id) as [->|Hne].
      + unfold ar3. rewrite nth_error_upd_same by auto. eexists; split; [reflexivity|]. rewrite E in Em. injection Em as <-. cbn; auto.
      + unfold ar3. rewrite nth_error_upd_other by auto. eauto.
    - intros q. induction q as [q IH] using lt_wf_ind. intros Hq.
      destruct (Nat.lt_trichotomy q id) as [Hlt|[->|Hgt]].
      + unfold size at 1. rewrite Hlow by auto. now apply S.
      + rewrite (size_node nc' ar3 id (AOp a op ch') W3) by (apply nth_error_upd_same; auto).
        rewrite (size_node nc ar id _ W E). cbn [nsize]. apply le_n_S. destruct Wn as (_ & _ & _ & Hf & _).
        assert (Hf' : Forall (fun c => c < id) (firstn a ch')) by (rewrite Forall_forall in *; intros x Hx; apply Hf; eapply firstn_in; eauto).
        clear -Hs Hlow Hf'. revert Hf'. induction Hs as [|x x' l l' Hx _ IHl]; intros Hf'; cbn [map sum_list]; auto. inversion Hf'; subst.
        specialize (IHl H2). assert (Hq : size ar3 x' = size ar2 x') by (unfold size; now rewrite Hlow). lia.
      + assert (En : nth_error ar3 q = nth_error ar q) by (unfold ar3; rewrite nth_error_upd_other by lia; apply Hab; lia).
        destruct (nth_error ar q) as [m|] eqn:Em; [|apply nth_error_None in Em; lia].
        rewrite (size_node _ _ _ _ W3 En), (size_node _ _ _ _ W Em). destruct m as [v|i|b o c]; auto.
        cbn [nsize]. apply le_n_S. apply sum_le. intros x Hx. apply firstn_in in Hx. apply W in Em as (_ & _ & _ & Hf & _).
        rewrite Forall_forall in Hf. specialize (Hf x Hx). apply IH; lia.
  Qed.

  Lemma ev_get nc ar nc' ar' p a op ch : ev nc ar nc' ar' -> nth_error ar p = Some (AOp a op ch) ->
    exists ch', nth_error ar' p = Some (AOp a op ch').
  Proof.
    intros (_ & _ & _ & K & _) E. destruct (K _ _ E) as (n' & E' & Hk). destruct n'; cbn in Hk; try tauto.
    destruct Hk as [-> ->]. eauto.
  Qed.

  Lemma put2_ok nc ar id op ch ch0 l r :
    wfa nc ar -> nth_error ar id = Some (AOp 2 op ch0) -> List.length ch = D -> Forall (fun c => c < id) ch -> Forall (fun c => c = 0) (skipn 2 ch) ->
    l < id -> r < id -> 1 + size ar l + size ar r <= size ar id ->
    put2 ar id 2 op ch l r = Ok (upd ar id (AOp 2 op (upd (upd ch 0 l) 1 r)))
    /\ ev nc ar nc (upd ar id (AOp 2 op (upd (upd ch 0 l) 1 r))).
  Proof.
    intros W E Hl Hc Hz Hl1 Hr1 Hs. pose proof (W _ _ E) as (L0 & Ha & Hk & _).
    assert (Hid : id < List.length ar) by (apply nth_error_Some; congruence).
    unfold put2, set_index. destruct (Nat.ltb_spec 0 (List.length ch)); [|lia]. cbn [bind]. rewrite upd_length.
    destruct (Nat.ltb_spec 1 (List.length ch)); [|lia]. cbn [bind].
    destruct (Nat.ltb_spec id (List.length ar)); [|lia]. split; auto.
    destruct ch as [|c0 [|c1 ch]]; cbn in Hl; try lia. cbn [upd].
    eapply ev_upd; eauto.
    - cbn. split; [exact Hl|]. split; auto. split; auto. inversion Hc as [|? ? _ Hc']; subst. inversion Hc'; subst. cbn in Hz. auto.
    - cbn; auto.
    - cbn [nsize firstn map sum_list]. lia.
  Qed.

  Context {T : Type} (F : FloatOps T).
  Let wf (cs : list T) ar := wfa (List.length cs) ar.

  (** Nothing above [id] is touched. *)
  Definition above (id : nat) (ar ar' : list anode) : Prop := forall p, id < p -> nth_error ar' p = nth_error ar p.

  (** What a call guarantees. *)
  Definition post (id : nat) (ar : list anode) (cs : list T) (ch : bool) (r : cres T) : Prop :=
    let '(id', ar', cs', ch') := r in
    ev (List.length cs) ar (List.length cs') ar' /\ id' <= id /\ size ar' id' <= size ar id
    /\ (exists new, cs' = cs ++ new /\ Forall (fun v => ffinite F v = true) new)
    /\ List.length cs' <= Nat.max (List.length cs) cap
    /\ (ch' = false -> ch = false /\ cs' = cs /\ id' = id)
    /\ above id ar ar'.

  Lemma above_upd id ar p n : p <= id -> above id ar (upd ar p n).
  Proof. intros H q Hq. apply nth_error_upd_other. lia. Qed.
  Lemma above_refl id ar : above id ar ar.
  Proof. intros q Hq. auto. Qed.
  Lemma above_trans id a b c : above id a b -> above id b c -> above id a c.
  Proof. intros H1 H2 q Hq. rewrite H2, H1; auto. Qed.

  Lemma append_const_some cs v k cs' : append_const F cs v = Some (k, cs') ->
    k = List.length cs /\ cs' = cs ++ [v] /\ ffinite F v = true /\ List.length cs < cap.
  Proof.
    unfold append_const. destruct (ffinite F v); cbn [negb]; [|discriminate].
    destruct (Nat.ltb_spec u16_max (List.length cs)); [discriminate|]. intros E. injection E as <- <-. unfold cap. repeat split; auto; lia.
  Qed.

  Lemma a_const_ok ar id : id < List.length ar -> exists r, a_const ar id = Ok r
    /\ (forall i, r = Some i <-> nth_error ar id = Some (AConst i)).
  Proof.
    intros H. unfold a_const, index. destruct (nth_error ar id) as [n|] eqn:E; [|apply nth_error_None in E; lia]. cbn.
    destruct n; eexists; (split; [reflexivity|]; intros j; split; congruence).
  Qed.

  Lemma a_op_ok ar id op : id < List.length ar -> exists r, a_op ar id op = Ok r
    /\ (forall a ch, r = Some (a, ch) <-> nth_error ar id = Some (AOp a op ch)).
  Proof.
    intros H. unfold a_op, index. destruct (nth_error ar id) as [n|] eqn:E; [|apply nth_error_None in E; lia]. cbn.
    destruct n as [| |a' o' ch']; try (eexists; (split; [reflexivity|]; intros; split; congruence)).
    destruct (Nat.eqb_spec o' op); eexists; (split; [reflexivity|]); intros; subst; split; try congruence.
  Qed.

  Lemma index_consts cs ar p i : wf cs ar -> nth_error ar p = Some (AConst i) -> exists v, index cs i = Ok v.
  Proof.
    intros W E. apply W in E. cbn in E. unfold index. destruct (nth_error cs i) as [v|] eqn:En; [cbn; eauto|].
    apply nth_error_None in En. lia.
  Qed.

  Lemma size_const nc ar p i : wfa nc ar -> nth_error ar p = Some (AConst i) -> size ar p = 1.
  Proof. intros W E. rewrite (size_node _ _ _ _ W E). reflexivity. Qed.

  Lemma post_keep id ar cs ch ar' : ev (List.length cs) ar (List.length cs) ar' -> above id ar ar' -> id < List.length ar -> forall ch', (ch' = false -> ch = false) ->
    post id ar cs ch (id, ar', cs, ch').
  Proof.
    intros E Hab Hid ch' Hc. unfold post. split; auto. split; auto. split; [apply E; auto|].
    split; [exists []; rewrite app_nil_r; auto|]. split; [lia|]. split; auto.
  Qed.

  (** Overwriting a constant leaf by the constant just appended. *)
  Lemma ev_leaf cs ar p i v : wf cs ar -> nth_error ar p = Some (AConst i) ->
    exists ar', set_index ar p (AConst (List.length cs)) = Ok ar'
      /\ ev (List.length cs) ar (List.length (cs ++ [v])) ar'
      /\ ar' = upd ar p (AConst (List.length cs))
      /\ (forall q, q < List.length ar -> size ar' q = size ar q).
  Proof.
    intros W E. assert (Hp : p < List.length ar) by (apply nth_error_Some; congruence).
    unfold set_index. destruct (Nat.ltb_spec p (List.length ar)); [|lia]. eexists; split; [reflexivity|].
    assert (W2 : wfa (List.length (cs ++ [v])) ar) by (eapply wfa_mono; [|exact W]; rewrite app_length; lia).
    assert (Ev : ev (List.length (cs ++ [v])) ar (List.length (cs ++ [v])) (upd ar p (AConst (List.length cs)))).
    { eapply ev_upd; eauto.
      - cbn. rewrite app_length; cbn; lia.
      - cbn; auto.
      - cbn. apply size_pos. }
    split; [|split; auto].
    - eapply ev_trans; [apply ev_mono with (nc' := List.length (cs ++ [v])); [exact W|rewrite app_length; lia]|]. exact Ev.
    - assert (Ev2 : ev (List.length (cs ++ [v])) (upd ar p (AConst (List.length cs))) (List.length (cs ++ [v])) (upd (upd ar p (AConst (List.length cs))) p (AConst i))).
      { eapply ev_upd.
        - apply Ev.
        - apply nth_error_upd_same; auto.
        - apply (W2 _ _ E).
        - cbn; auto.
        - cbn. apply size_pos. }
      rewrite upd_upd_same, (upd_same_val ar p (AConst i) E) in Ev2.
      intros q Hq. apply Nat.le_antisymm; [now apply Ev|]. apply Ev2. now rewrite upd_length.
  Qed.

  Lemma first_two_index (ch : list nat) : List.length ch = D -> 2 <= D -> exists c0 c1 tl, ch = c0 :: c1 :: tl.
  Proof. destruct ch as [|c0 [|c1 tl]]; cbn; intros; try lia. eauto. Qed.

  Lemma addmul_post is_add id ar cs ch op children :
    wf cs ar -> nth_error ar id = Some (AOp 2 op children) ->
    exists r, combine_addmul F is_add id ar cs ch 2 op children = Ok r /\ post id ar cs ch r.
  Proof.
    intros W E. assert (Hid : id < List.length ar) by (apply nth_error_Some; congruence).
    pose proof (W _ _ E) as (L & Ha & Hk & Hf & Hz).
    destruct (first_two_index children L ltac:(lia)) as (c0 & c1 & tl & ->).
    assert (Hc0 : c0 < id) by (inversion Hf; auto). assert (Hc1 : c1 < id) by (inversion Hf as [|? ? _ H]; inversion H; auto).
    assert (Hsz : size ar id = 1 + (size ar c0 + size ar c1)).
    { rewrite (size_node _ _ _ _ W E). cbn. lia. }
    unfold combine_addmul. unfold index at 1 2. cbn [nth_error expect bind].
    destruct (a_const_ok ar c0) as (lc & -> & Hlc); [lia|]. cbn [bind].
    set (lft := match lc with Some _ => c1 | None => c0 end).
    set (rgt := match lc with Some _ => c0 | None => c1 end).
    set (ch1 := match lc with Some _ => true | None => ch end).
    assert (Et : (match lc with Some _ => (c1, c0, true) | None => (c0, c1, ch) end) = (lft, rgt, ch1)) by (subst lft rgt ch1; destruct lc; reflexivity).
    rewrite Et. clear Et.
    assert (Hl : lft < id) by (subst lft; destruct lc; auto). assert (Hr : rgt < id) by (subst rgt; destruct lc; auto).
    assert (Hsz' : size ar id = 1 + (size ar lft + size ar rgt)) by (subst lft rgt; destruct lc; lia).
    assert (Hch : ch1 = false -> ch = false) by (subst ch1; destruct lc; [discriminate|auto]).
    clearbody lft rgt ch1.
    destruct (put2_ok (List.length cs) ar id op (c0 :: c1 :: tl) (c0 :: c1 :: tl) lft rgt W E L Hf Hz Hl Hr) as [Ep Ev]; [lia|].
    rewrite Ep. cbn [bind].
    pose proof (post_keep id ar cs ch _ Ev (above_upd _ _ _ _ (le_n id)) Hid ch1 Hch) as Hkeep.
    destruct (a_const_ok ar rgt) as (rc & -> & Hrc); [lia|]. cbn [bind]. destruct rc as [ti|]; [|eauto].
    assert (Er : nth_error ar rgt = Some (AConst ti)) by (now apply Hrc).
    destruct (index_consts cs ar rgt ti W Er) as (tv & ->). cbn [bind].
    destruct (a_op_ok ar lft op) as (ob & -> & Hob); [lia|]. cbn [bind]. destruct ob as [[ba bch]|]; [|eauto].
    assert (Eb : nth_error ar lft = Some (AOp ba op bch)) by (now apply Hob).
    destruct ba as [|[|[|ba]]]; eauto.
    pose proof (W _ _ Eb) as (Lb & Hba & _ & Hfb & _). destruct (first_two_index bch Lb ltac:(lia)) as (b0 & b1 & btl & ->).
    assert (Hb0 : b0 < lft) by (inversion Hfb; auto). assert (Hb1 : b1 < lft) by (inversion Hfb as [|? ? _ H]; inversion H; auto).
    unfold index at 1 2. cbn [nth_error expect bind].
    destruct (a_const_ok ar b0) as (k0 & -> & Hk0); [lia|]. destruct (a_const_ok ar b1) as (k1 & -> & Hk1); [lia|]. cbn [bind].
    assert (Hleaf : forall q qi, nth_error ar q = Some (AConst qi) ->
      q <= id -> exists r, (let! below_v := index cs qi in
         if negb (ffinite F below_v) || negb (ffinite F tv) then Ok (id, upd ar id (AOp 2 op (upd (upd (c0 :: c1 :: tl) 0 lft) 1 rgt)), cs, ch1)
         else match append_const F cs (if is_add then fadd F below_v tv else fmul F below_v tv) with
              | Some (new_idx, cs') => let! ar' := set_index ar q (AConst new_idx) in Ok (lft, ar', cs', true)
              | None => Ok (id, upd ar id (AOp 2 op (upd (upd (c0 :: c1 :: tl) 0 lft) 1 rgt)), cs, ch1)
              end) = Ok r /\ post id ar cs ch r).
    { intros q qi Eq Hq. destruct (index_consts cs ar q qi W Eq) as (bv & ->). cbn [bind].
      destruct (negb (ffinite F bv) || negb (ffinite F tv)); [eauto|].
      destruct (append_const F cs _) as [[k cs']|] eqn:Eap; [|eauto].
      apply append_const_some in Eap as (-> & -> & Hfin & Hcap).
      destruct (ev_leaf cs ar q qi (if is_add then fadd F bv tv else fmul F bv tv) W Eq) as (ar' & -> & Ev' & Hu & _). cbn [bind].
      eexists; split; [reflexivity|]. unfold post. split; auto. split; [lia|].
      split. { destruct Ev' as (_ & _ & _ & _ & S'). specialize (S' lft ltac:(lia)). lia. }
      split; [eexists; split; [reflexivity|]; constructor; auto|]. split; [rewrite app_length; cbn; lia|]. split; [discriminate|]. rewrite Hu. apply above_upd; auto. }
    destruct k0 as [i0|]; [apply Hleaf; [now apply Hk0|lia]|]. destruct k1 as [i1|]; [apply Hleaf; [now apply Hk1|lia]|]. eauto.
  Qed.

  (** Children of a node with the id of subtraction, whatever its arity: the two cells read. *)
  Lemma two_cells cs ar p a op ch : wf cs ar -> 2 <= D -> nth_error ar p = Some (AOp a op ch) ->
    exists r0 r1 tl, ch = r0 :: r1 :: tl /\ r0 < p /\ r1 < p /\ size ar r0 + size ar r1 <= size ar p.
  Proof.
    intros W HD E. pose proof (W _ _ E) as (L & Ha & _ & Hf & Hz). destruct (first_two_index ch L HD) as (r0 & r1 & tl & ->).
    exists r0, r1, tl. inversion Hf as [|? ? H0 Hf']; subst. inversion Hf' as [|? ? H1 Hf'']; subst. repeat split; auto.
    rewrite (size_node _ _ _ _ W E). cbn [nsize]. destruct a as [|[|a]]; [lia| |].
    - cbn [firstn map sum_list skipn] in *. inversion Hz; subst. rewrite (size_zero _ _ W); [lia|].
      assert (p < List.length ar) by (apply nth_error_Some; congruence). lia.
    - cbn [firstn map sum_list]. lia.
  Qed.

  Lemma post_put cs ar id op children q i v l r ch :
    wf cs ar -> nth_error ar id = Some (AOp 2 op children) -> nth_error ar q = Some (AConst i) ->
    ffinite F v = true -> List.length cs < cap -> l < id -> r < id -> q <= id ->
    1 + size ar l + size ar r <= size ar id ->
    exists ar1 ar2, set_index ar q (AConst (List.length cs)) = Ok ar1 /\ put2 ar1 id 2 op children l r = Ok ar2
      /\ post id ar cs ch (id, ar2, cs ++ [v], true).
  Proof.
    intros W E Eq Hfin Hcap Hl Hr Hq Hs. assert (Hid : id < List.length ar) by (apply nth_error_Some; congruence).
    destruct (ev_leaf cs ar q i v W Eq) as (ar1 & E1 & Ev1 & Hu & Hsz).
    assert (E' : nth_error ar1 id = Some (AOp 2 op children)).
    { rewrite Hu, nth_error_upd_other; auto. intros ->. congruence. }
    pose proof (W _ _ E) as (L & Ha & Hk & Hf & Hz).
    assert (W1 : wfa (List.length (cs ++ [v])) ar1) by apply Ev1.
    destruct (put2_ok _ ar1 id op children children l r W1 E' L Hf Hz Hl Hr) as [Ep Ev2].
    { rewrite !Hsz by lia. lia. }
    exists ar1. eexists. split; auto. split; [exact Ep|].
    pose proof (ev_trans _ _ _ _ _ _ Ev1 Ev2) as Ev. unfold post. split; auto. split; auto. split; [now apply Ev|].
    split; [eexists; split; [reflexivity|]; constructor; auto|]. split; [rewrite app_length; cbn; lia|]. split; [discriminate|].
    eapply above_trans; [|apply above_upd; auto]. rewrite Hu. apply above_upd; auto.
  Qed.

  Lemma sub_left_post id ar cs op children lft rgt ch :
    wf cs ar -> nth_error ar id = Some (AOp 2 op children) -> 2 <= D ->
    lft < id -> rgt < id -> size ar id = 1 + size ar lft + size ar rgt ->
    exists r, combine_sub_left F id ar cs 2 op children lft rgt = Ok r
      /\ forall r', r = Some r' -> post id ar cs ch r'.
  Proof.
    intros W E HD Hl Hr Hsz. assert (Hid : id < List.length ar) by (apply nth_error_Some; congruence).
    unfold combine_sub_left.
    destruct (a_const_ok ar lft) as (lc & -> & Hlc); [lia|]. cbn [bind]. destruct lc as [ai|]; [|eexists; split; [reflexivity|discriminate]].
    assert (El : nth_error ar lft = Some (AConst ai)) by (now apply Hlc).
    destruct (a_op_ok ar rgt op) as (ro & -> & Hro); [lia|]. cbn [bind]. destruct ro as [[ra rch]|]; [|eexists; split; [reflexivity|discriminate]].
    assert (Er : nth_error ar rgt = Some (AOp ra op rch)) by (now apply Hro).
    destruct (two_cells cs ar rgt ra op rch W HD Er) as (r0 & r1 & tl & -> & Hr0 & Hr1 & Hs).
    unfold index at 1 2. cbn [nth_error expect bind].
    destruct (index_consts cs ar lft ai W El) as (av & ->). cbn [bind].
    destruct (a_const_ok ar r0) as (k0 & -> & Hk0); [lia|]. cbn [bind].
    pose proof (size_const _ _ _ _ W El) as Hs1.
    destruct k0 as [bi|].
    - assert (E0 : nth_error ar r0 = Some (AConst bi)) by (now apply Hk0).
      destruct (index_consts cs ar r0 bi W E0) as (bv & ->). cbn [bind].
      destruct (ffinite F av && ffinite F bv); [|eexists; split; [reflexivity|discriminate]].
      destruct (append_const F cs _) as [[k cs']|] eqn:Eap; [|eexists; split; [reflexivity|discriminate]].
      apply append_const_some in Eap as (-> & -> & Hfin & Hcap).
      destruct (post_put cs ar id op children r0 bi (fsub F bv av) r1 r0 ch) as (a1 & a2 & -> & E2 & Hp); auto; try lia.
      cbn [bind]. rewrite E2. eexists; split; [reflexivity|]. intros r' Er'. injection Er' as <-. exact Hp.
    - destruct (a_const_ok ar r1) as (k1 & -> & Hk1); [lia|]. cbn [bind]. destruct k1 as [bi|]; [|eexists; split; [reflexivity|discriminate]].
      assert (E1 : nth_error ar r1 = Some (AConst bi)) by (now apply Hk1).
      destruct (index_consts cs ar r1 bi W E1) as (bv & ->). cbn [bind].
      destruct (ffinite F av && ffinite F bv); [|eexists; split; [reflexivity|discriminate]].
      destruct (append_const F cs _) as [[k cs']|] eqn:Eap; [|eexists; split; [reflexivity|discriminate]].
      apply append_const_some in Eap as (-> & -> & Hfin & Hcap). pose proof (size_const _ _ _ _ W E1).
      destruct (post_put cs ar id op children lft ai (fadd F av bv) lft r0 ch) as (a1 & a2 & -> & E2 & Hp); auto; try lia.
      cbn [bind]. rewrite E2. eexists; split; [reflexivity|]. intros r' Er'. injection Er' as <-. exact Hp.
  Qed.

  Lemma sub_right_post id ar cs op children lft rgt ch :
    wf cs ar -> nth_error ar id = Some (AOp 2 op children) -> 2 <= D ->
    lft < id -> rgt < id -> size ar id = 1 + size ar lft + size ar rgt ->
    exists r, combine_sub_right F id ar cs 2 op children lft rgt = Ok r
      /\ forall r', r = Some r' -> post id ar cs ch r'.
  Proof.
    intros W E HD Hl Hr Hsz. assert (Hid : id < List.length ar) by (apply nth_error_Some; congruence).
    unfold combine_sub_right.
    destruct (a_const_ok ar rgt) as (rc & -> & Hrc); [lia|]. cbn [bind]. destruct rc as [bi|]; [|eexists; split; [reflexivity|discriminate]].
    assert (Er : nth_error ar rgt = Some (AConst bi)) by (now apply Hrc).
    destruct (a_op_ok ar lft op) as (lo & -> & Hlo); [lia|]. cbn [bind]. destruct lo as [[la lch]|]; [|eexists; split; [reflexivity|discriminate]].
    assert (El : nth_error ar lft = Some (AOp la op lch)) by (now apply Hlo).
    destruct (two_cells cs ar lft la op lch W HD El) as (l0 & l1 & tl & -> & Hl0 & Hl1 & Hs).
    unfold index at 1 2. cbn [nth_error expect bind].
    destruct (index_consts cs ar rgt bi W Er) as (bv & ->). cbn [bind].
    destruct (a_const_ok ar l0) as (k0 & -> & Hk0); [lia|]. cbn [bind].
    pose proof (size_const _ _ _ _ W Er) as Hs1.
    destruct k0 as [ai|].
    - assert (E0 : nth_error ar l0 = Some (AConst ai)) by (now apply Hk0).
      destruct (index_consts cs ar l0 ai W E0) as (av & ->). cbn [bind].
      destruct (ffinite F av && ffinite F bv); [|eexists; split; [reflexivity|discriminate]].
      destruct (append_const F cs _) as [[k cs']|] eqn:Eap; [|eexists; split; [reflexivity|discriminate]].
      apply append_const_some in Eap as (-> & -> & Hfin & Hcap).
      destruct (post_put cs ar id op children l0 ai (fsub F av bv) l0 l1 ch) as (a1 & a2 & -> & E2 & Hp); auto; try lia.
      cbn [bind]. rewrite E2. eexists; split; [reflexivity|]. intros r' Er'. injection Er' as <-. exact Hp.
    - destruct (a_const_ok ar l1) as (k1 & -> & Hk1); [lia|]. cbn [bind]. destruct k1 as [ai|]; [|eexists; split; [reflexivity|discriminate]].
      assert (E1 : nth_error ar l1 = Some (AConst ai)) by (now apply Hk1).
      destruct (index_consts cs ar l1 ai W E1) as (av & ->). cbn [bind].
      destruct (ffinite F av && ffinite F bv); [|eexists; split; [reflexivity|discriminate]].
      destruct (append_const F cs _) as [[k cs']|] eqn:Eap; [|eexists; split; [reflexivity|discriminate]].
      apply append_const_some in Eap as (-> & -> & Hfin & Hcap).
      destruct (post_put cs ar id op children l1 ai (fadd F av bv) l0 l1 ch) as (a1 & a2 & -> & E2 & Hp); auto; try lia.
      cbn [bind]. rewrite E2. eexists; split; [reflexivity|]. intros r' Er'. injection Er' as <-. exact Hp.
  Qed.

  Lemma top_post cfg id ar cs ch op children :
    wf cs ar -> nth_error ar id = Some (AOp 2 op children) ->
    exists r, combine_top F cfg id ar cs ch 2 op children = Ok r /\ post id ar cs ch r.
  Proof.
    intros W E. unfold combine_top. pose proof (W _ _ E) as (L & Ha & Hk & Hf & Hz).
    assert (Hid : id < List.length ar) by (apply nth_error_Some; congruence).
    assert (Hkeep : post id ar cs ch (id, ar, cs, ch)) by (apply post_keep; auto using above_refl; now apply ev_refl).
    destruct (opt_is (add_id cfg) op || opt_is (mul_id cfg) op); [now apply addmul_post|].
    destruct (opt_is (sub_id cfg) op); [|eauto].
    destruct (first_two_index children L ltac:(lia)) as (c0 & c1 & tl & ->).
    assert (Hc0 : c0 < id) by (inversion Hf; auto). assert (Hc1 : c1 < id) by (inversion Hf as [|? ? _ H]; inversion H; auto).
    assert (Hsz : size ar id = 1 + size ar c0 + size ar c1).
    { rewrite (size_node _ _ _ _ W E). cbn. lia. }
    unfold index at 1 2. cbn [nth_error expect bind].
    destruct (sub_left_post id ar cs op (c0 :: c1 :: tl) c0 c1 ch W E ltac:(lia) Hc0 Hc1 Hsz) as (r1 & -> & H1). cbn [bind].
    destruct r1 as [r1|]; [eauto|].
    destruct (sub_right_post id ar cs op (c0 :: c1 :: tl) c0 c1 ch W E ltac:(lia) Hc0 Hc1 Hsz) as (r2 & -> & H2). cbn [bind].
    destruct r2 as [r2|]; eauto.
  Qed.

  Lemma post_compose id ar cs ch ar1 cs1 ch1 r :
    ev (List.length cs) ar (List.length cs1) ar1 ->
    (exists new, cs1 = cs ++ new /\ Forall (fun v => ffinite F v = true) new) ->
    List.length cs1 <= Nat.max (List.length cs) cap -> (ch1 = false -> ch = false /\ cs1 = cs) ->
    id < List.length ar -> above id ar ar1 -> post id ar1 cs1 ch1 r -> post id ar cs ch r.
  Proof.
    intros Ev (n1 & -> & F1) L1 C1 Hid Hab. destruct r as [[[id' ar'] cs'] ch']. unfold post.
    intros (Ev' & Hle & Hs & (n2 & -> & F2) & L2 & C2 & Hab2).
    split; [eapply ev_trans; eauto|]. split; auto.
    split. { destruct Ev as (_ & _ & _ & _ & S1). specialize (S1 id Hid). lia. }
    split. { exists (n1 ++ n2). rewrite app_assoc. split; auto. apply Forall_app; auto. }
    split; [lia|]. split; [|eapply above_trans; eauto]. intros E. destruct (C2 E) as (E1 & E2 & E3). destruct (C1 E1) as (E4 & E5). split; auto. split; auto. congruence.
  Qed.

  Lemma combine_node_post cfg : forall fuel id ar cs ch,
    wf cs ar -> id < List.length ar -> id < fuel ->
    exists r, combine_node F cfg fuel id ar cs ch = Ok r /\ post id ar cs ch r.
  Proof.
    induction fuel as [|fuel IH]; intros id ar cs ch W Hid Hfu; [lia|]. cbn [combine_node].
    unfold index at 1. destruct (nth_error ar id) as [n|] eqn:E; [|apply nth_error_None in E; lia]. cbn [expect bind].
    destruct n as [v|i|a op children].
    { eexists; split; [reflexivity|]. apply post_keep; auto using above_refl. now apply ev_refl. }
    { eexists; split; [reflexivity|]. apply post_keep; auto using above_refl. now apply ev_refl. }
    pose proof (W _ _ E) as (L & Ha & Hk & Hf & Hz).
    (* the loop over the children *)
    assert (Hloop : forall todo done ar1 cs1 ch1,
      wf cs1 ar1 -> List.length ar1 = List.length ar -> Forall (fun c => c < id) todo ->
      exists done' ar2 cs2 ch2,
        foldM (fun '(done, ar, cs, changed) cid =>
                 let! (cid', ar', cs', changed') := combine_node F cfg fuel cid ar cs changed in
                 Ok (done ++ [cid'], ar', cs', changed')) todo (done, ar1, cs1, ch1)
        = Ok (done ++ done', ar2, cs2, ch2)
        /\ ev (List.length cs1) ar1 (List.length cs2) ar2
        /\ Forall2 (fun c c' => c' <= c /\ size ar2 c' <= size ar1 c) todo done'
        /\ (exists new, cs2 = cs1 ++ new /\ Forall (fun v => ffinite F v = true) new)
        /\ List.length cs2 <= Nat.max (List.length cs1) cap
        /\ (ch2 = false -> ch1 = false /\ cs2 = cs1 /\ done' = todo)
        /\ (forall p, id <= p -> nth_error ar2 p = nth_error ar1 p)).
    { induction todo as [|c todo IHt]; intros done ar1 cs1 ch1 W1 L1 Ht; cbn [foldM].
      - exists [], ar1, cs1, ch1. rewrite app_nil_r. split; auto. split; [now apply ev_refl|]. split; [constructor|].
        split; [exists []; rewrite app_nil_r; auto|]. split; [lia|auto].
      - inversion Ht as [|? ? Hc Ht']; subst.
        destruct (IH c ar1 cs1 ch1 W1) as ([[[c' ar2] cs2] ch2] & Ec & Hp); [lia|lia|]. rewrite Ec. cbn [bind].
        destruct Hp as (Ev & Hle & Hs & (n1 & -> & F1) & L2 & C2 & Hab).
        destruct (IHt (done ++ [c']) ar2 (cs1 ++ n1) ch2) as (done' & ar3 & cs3 & ch3 & E3 & Ev3 & H3 & (n2 & -> & F2) & L3 & C3 & Hab3); auto.
        { apply Ev. } { rewrite <- L1. apply Ev. }
        exists (c' :: done'), ar3, ((cs1 ++ n1) ++ n2), ch3. rewrite E3, <- app_assoc. cbn [app].
        split; auto. split; [eapply ev_trans; eauto|]. split.
        { constructor.
          - split; auto. destruct Ev3 as (_ & _ & _ & _ & S3). specialize (S3 c' ltac:(destruct Ev as (-> & _); lia)). lia.
          - assert (Hlt : forall x, In x todo -> x < List.length ar1).
            { rewrite Forall_forall in Ht'. intros x Hx. specialize (Ht' x Hx). lia. }
            clear -H3 Ev Hlt. induction H3 as [|x x' l l' [Hx1 Hx2] _ IHl]; constructor.
            + split; auto. destruct Ev as (_ & _ & _ & _ & S1). specialize (S1 x (Hlt x (or_introl eq_refl))). lia.
            + apply IHl. intros y Hy. apply Hlt. right; auto. }
        split. { exists (n1 ++ n2). rewrite app_assoc. split; auto. apply Forall_app; auto. }
        split; [lia|]. split; [|intros p Hp; rewrite Hab3, Hab by lia; auto].
        intros Hf3. destruct (C3 Hf3) as (E4 & E5 & ->). destruct (C2 E4) as (E6 & E7 & ->). split; auto. split; auto. congruence. }
    assert (Hft : Forall (fun c => c < id) (firstn a children)) by (rewrite Forall_forall in *; intros x Hx; apply Hf; eapply firstn_in; eauto).
    destruct (Hloop (firstn a children) [] ar cs ch W eq_refl Hft) as (done' & ar2 & cs2 & ch2 & -> & Ev & H2 & Hn & Hcap & Hch2 & Hab2). cbn [bind app].
    pose proof (Forall2_len _ _ _ H2) as Hdl. rewrite firstn_length in Hdl.
    set (ch' := done' ++ skipn a children) in *.
    assert (Hl' : List.length ch' = D). { unfold ch'. rewrite app_length, skipn_length. lia. }
    assert (Hsk : skipn a ch' = skipn a children) by (unfold ch'; rewrite skipn_app, skipn_all2 by lia; replace (a - List.length done') with 0 by lia; reflexivity).
    assert (Hfk : firstn a ch' = done') by (unfold ch'; rewrite firstn_app, firstn_all2 by lia; replace (a - List.length done') with 0 by lia; cbn; apply app_nil_r).
    assert (Hf' : Forall (fun c => c < id) ch').
    { unfold ch'. apply Forall_app. split.
      - clear -H2 Hft. induction H2 as [|x x' l l' [Hx _] _ IHl]; constructor; inversion Hft; subst; auto. lia.
      - rewrite Forall_forall in *. intros x Hx. apply Hf. rewrite <- (firstn_skipn a children). apply in_or_app; auto. }
    assert (Hlen2 : List.length ar2 = List.length ar) by apply Ev.
    assert (E2 : nth_error ar2 id = Some (AOp a op children)) by (rewrite Hab2; auto).
    assert (Ev4 : ev (List.length cs) ar (List.length cs2) (upd ar2 id (AOp a op ch'))).
    { apply (ev_node _ _ _ _ _ a op children); auto; [cbn; rewrite Hsk; repeat split; auto; lia|]. rewrite Hfk. clear -H2. induction H2 as [|x x' l l' [_ Hx] _ IHl]; constructor; auto. }
    unfold set_index. destruct (Nat.ltb_spec id (List.length ar2)); [|lia]. cbn [bind].
    assert (E3 : nth_error (upd ar2 id (AOp a op ch')) id = Some (AOp a op ch')) by (apply nth_error_upd_same; lia).
    assert (Hab4 : above id ar (upd ar2 id (AOp a op ch'))).
    { intros p Hp. rewrite nth_error_upd_other by lia. apply Hab2. lia. }
    assert (Hfin : forall r, post id (upd ar2 id (AOp a op ch')) cs2 ch2 r -> post id ar cs ch r).
    { intros r. apply post_compose; auto. intros Hc. destruct (Hch2 Hc) as (? & ? & ?); auto. }
    destruct (Nat.eqb_spec a 2) as [->|Hne]; cbn [negb].
    - destruct (top_post cfg id (upd ar2 id (AOp 2 op ch')) cs2 ch2 op ch') as (r & Er & Hp); auto; [apply Ev4|].
      exists r. split; auto.
    - eexists; split; [reflexivity|]. apply Hfin. apply post_keep; auto using above_refl; [apply ev_refl, Ev4|]. rewrite upd_length. lia.
  Qed.
End Weak.
