(** Proofs about complexity.rs and check_constraints.rs. *)
From Verif Require Import Base BaseLemmas Node Tree NodeProofs SpanProofs Registry PropRegistry Complexity ComplexitySpec.

Lemma opid_eqb_eq a b : opid_eqb a b = true <-> a = b.
Proof.
  destruct a as [a1 a2], b as [b1 b2]. unfold opid_eqb. cbn. rewrite andb_true_iff, !Nat.eqb_eq.
  split; [intros [-> ->]; auto|intros [= -> ->]; auto].
Qed.

Lemma map_get_set {V} (m : list (opid * V)) k v k' :
  map_get (map_set m k v) k' = if opid_eqb k k' then Some v else map_get m k'.
Proof.
  induction m as [|[q w] m IH]; cbn.
  - reflexivity.
  - destruct (opid_eqb q k) eqn:E; cbn.
    + apply opid_eqb_eq in E as ->. destruct (opid_eqb k k'); reflexivity.
    + destruct (opid_eqb q k') eqn:E2; [|exact IH].
      destruct (opid_eqb k k') eqn:E3; [|reflexivity].
      apply opid_eqb_eq in E2 as ->. apply opid_eqb_eq in E3 as ->.
      rewrite (proj2 (opid_eqb_eq k' k') eq_refl) in E. discriminate.
Qed.

(** ** Custom complexity *)
Lemma pop_children_app l : forall st D k, List.length l + k = D ->
  forall tail, List.length tail = k ->
  pop_children (List.length l) (rev l ++ st) (repeat 0 (List.length l) ++ tail) = Ok (l ++ tail, st).
Proof.
  induction l as [|x l IH] using rev_ind; intros st D k HD tail Ht; [reflexivity|].
  rewrite app_length in *. cbn [List.length] in *. rewrite Nat.add_1_r. cbn [pop_children].
  rewrite rev_app_distr. cbn [rev app hd tl].
  unfold set_index. rewrite app_length, repeat_length.
  destruct (Nat.ltb_spec (List.length l) (S (List.length l) + List.length tail)); [|lia]. cbn [bind].
  cbn [repeat]. rewrite repeat_cons, <- app_assoc. cbn [app].
  replace (upd (repeat 0 (List.length l) ++ 0 :: tail) (List.length l) x) with (repeat 0 (List.length l) ++ x :: tail).
  2:{ rewrite <- (repeat_length 0 (List.length l)) at 3. rewrite upd_middle. reflexivity. }
  rewrite <- app_assoc. apply (IH st D (S k)); cbn; lia.
Qed.

Lemma fold_sat umax l : forall a, a <= umax -> fold_left (sat_add umax) l a = Nat.min umax (a + sum_list l).
Proof.
  induction l as [|x l IH]; intros a Ha; cbn [fold_left sum_list]; [lia|].
  rewrite IH by (unfold sat_add; lia). unfold sat_add. lia.
Qed.

Lemma sum_list_min umax l : Nat.min umax (sum_list (map (Nat.min umax) l)) = Nat.min umax (sum_list l).
Proof. induction l as [|x l IH]; cbn; lia. Qed.

Lemma sum_list_repeat0 k : sum_list (repeat 0 k) = 0.
Proof. induction k; cbn; auto. Qed.

(** All arguments of a node fit, as a boolean. *)
Definition args_fit_b (o : size_opts) (m : list (opid * list (option nat))) (op : nat) (cs : list tree) : bool :=
  match map_get m (List.length cs, op) with
  | None => true
  | Some lims =>
      forallb (fun p => match fst p with None => true | Some lim => cost o (snd p) <=? lim end) (combine lims cs)
  end.

Fixpoint within (o : size_opts) (m : list (opid * list (option nat))) (t : tree) : bool :=
  match t with
  | TOp op cs => forallb (within o m) cs && args_fit_b o m op cs
  | _ => true
  end.

Lemma over_limit_spec (umax D : nat) (o : size_opts) lims cs tail :
  List.length cs <= List.length lims -> u16_max < umax ->
  (forall lim, In (Some lim) lims -> lim <= u16_max) ->
  over_limit lims (map (fun c => Nat.min umax (cost o c)) cs ++ tail) (seq 0 (List.length cs))
  = Ok (negb (forallb (fun p => match fst p with None => true | Some lim => cost o (snd p) <=? lim end) (combine lims cs))).
Proof.
  intros Hl Hu Hlim.
  assert (H : forall pre ls post cs' pre_l,
    lims = pre_l ++ ls -> cs = pre ++ cs' -> List.length pre = List.length pre_l ->
    List.length cs' <= List.length ls -> post = tail ->
    over_limit lims (map (fun c => Nat.min umax (cost o c)) cs ++ post) (seq (List.length pre) (List.length cs'))
    = Ok (negb (forallb (fun p => match fst p with None => true | Some lim => cost o (snd p) <=? lim end) (combine ls cs')))).
  { clear Hl. intros pre ls post cs'. revert pre ls. induction cs' as [|c cs' IH]; intros pre ls pre_l E1 E2 E3 Hl ->.
    - cbn. destruct ls; reflexivity.
    - destruct ls as [|l ls]; [cbn in Hl; lia|]. cbn [List.length seq over_limit combine forallb].
      assert (Hi : nth_error lims (List.length pre) = Some l).
      { rewrite E1, E3, nth_error_app2, Nat.sub_diag by lia. reflexivity. }
      unfold index at 1. rewrite Hi. cbn [expect bind fst].
      assert (Hrec : over_limit lims (map (fun c => Nat.min umax (cost o c)) cs ++ tail) (seq (S (List.length pre)) (List.length cs'))
       = Ok (negb (forallb (fun p => match fst p with None => true | Some lim => cost o (snd p) <=? lim end) (combine ls cs')))).
      { replace (S (List.length pre)) with (List.length (pre ++ [c])) by (rewrite app_length; cbn; lia).
        apply (IH (pre ++ [c]) ls (pre_l ++ [l])).
        - rewrite E1, <- app_assoc. reflexivity.
        - rewrite E2, <- app_assoc. reflexivity.
        - rewrite !app_length. cbn. lia.
        - cbn in Hl. lia.
        - reflexivity. }
      destruct l as [lim|]; [|exact Hrec].
      unfold index. rewrite E2 at 1. rewrite map_app. cbn [map]. rewrite <- app_assoc.
      rewrite nth_error_app2 by (rewrite map_length; lia). rewrite map_length, Nat.sub_diag. cbn [nth_error app expect bind snd].
      assert (lim <= u16_max) by (apply Hlim; rewrite E1; apply in_or_app; right; left; reflexivity).
      destruct (Nat.leb_spec (cost o c) lim); destruct (Nat.ltb_spec lim (Nat.min umax (cost o c))); cbn [andb negb]; try lia; auto. }
  apply (H [] lims tail cs []); auto.
Qed.

Lemma var_cost_spec o f : var_cost o f = feature_cost o f.
Proof.
  unfold var_cost, feature_cost. destruct (variable_complexities o) as [v|]; [|reflexivity].
  destruct (nth_error v f) eqn:E; [symmetry; now apply nth_error_nth|symmetry; apply nth_overflow; now apply nth_error_None].
Qed.
Lemma cost_le_u16_leaf umax D o t : widths umax D o -> match t with TOp _ _ => True | _ => cost o t <= umax end.
Proof.
  intros W. pose proof (w_umax _ _ _ W). destruct t as [f|i|op cs]; auto.
  - cbn. rewrite <- var_cost_spec. unfold var_cost. destruct (variable_complexities o) as [v|] eqn:E; [|pose proof (w_var _ _ _ W); lia].
    destruct (nth_error v f) eqn:En; [|pose proof (w_var _ _ _ W); lia].
    pose proof (w_vars _ _ _ W v n E (nth_error_In _ _ En)). lia.
  - cbn. pose proof (w_const _ _ _ W). lia.
Qed.

Definition lim_table (lims : option (list (opid * list (option nat)))) : list (opid * list (option nat)) :=
  match lims with Some m => m | None => [] end.

Lemma complexity_loop_flatten umax D o lims t :
  widths umax D o -> (lims = None \/ lims = Some (op_limits o)) ->
  forall nf nc known, tree_ok D nf nc known t -> forall rest st,
  complexity_loop umax D o lims (flatten t ++ rest) st
  = if within o (lim_table lims) t then complexity_loop umax D o lims rest (Nat.min umax (cost o t) :: st) else Ok None.
Proof.
  intros W HL nf nc known. induction t as [f|i|op cs IH] using tree_ind'; intros Hok rest st.
  - pose proof (cost_le_u16_leaf _ _ _ (TVar f) W). cbn [flatten app complexity_loop within].
    cbn in H. cbn [cost]. rewrite Nat.min_r by lia. rewrite var_cost_spec. reflexivity.
  - pose proof (cost_le_u16_leaf _ _ _ (TConst i) W). cbn [flatten app complexity_loop within].
    cbn in H. cbn [cost]. rewrite Nat.min_r by lia. reflexivity.
  - cbn [tree_ok] in Hok. destruct Hok as (Har & _ & Hcs). apply fold_right_and_Forall in Hcs.
    cbn [flatten]. rewrite <- app_assoc.
    assert (Hch : forall st rest', complexity_loop umax D o lims (flat_map flatten cs ++ rest') st
      = if forallb (within o (lim_table lims)) cs
        then complexity_loop umax D o lims rest' (rev (map (fun c => Nat.min umax (cost o c)) cs) ++ st) else Ok None).
    { clear rest st Har. induction cs as [|c cs IHcs]; intros st rest'; [reflexivity|].
      apply Forall_cons_iff in IH as [Hc IH']. apply Forall_cons_iff in Hcs as [Hc1 Hcs].
      cbn [flat_map map rev forallb]. rewrite <- app_assoc, (Hc Hc1).
      destruct (within o (lim_table lims) c); cbn [andb]; [|reflexivity].
      rewrite (IHcs IH' Hcs), <- app_assoc. reflexivity. }
    rewrite Hch. cbn [within]. destruct (forallb (within o (lim_table lims)) cs); [|reflexivity]. cbn [andb app complexity_loop].
    set (costs := map (fun c => Nat.min umax (cost o c)) cs).
    assert (Hlc : List.length costs = List.length cs) by apply map_length.
    unfold fill. replace (repeat 0 D) with (repeat 0 (List.length costs) ++ repeat 0 (D - List.length cs)).
    2:{ rewrite <- repeat_app. f_equal. lia. }
    rewrite <- Hlc at 1. rewrite (pop_children_app costs st D (D - List.length cs)); [|lia|apply repeat_length].
    cbn [bind].
    assert (Hsum : fold_left (sat_add umax) (costs ++ repeat 0 (D - List.length cs)) 0
                   = Nat.min umax (sum_list (map (cost o) cs))).
    { rewrite fold_sat by lia. rewrite sum_list_app, sum_list_repeat0. cbn [Nat.add]. rewrite Nat.add_0_r.
      unfold costs. rewrite <- (map_map (cost o) (Nat.min umax)). apply sum_list_min. }
    rewrite Hsum.
    assert (Hnext : sat_add umax (match map_get (operator_overrides o) (List.length cs, op) with Some b => b | None => 1 end)
                      (Nat.min umax (sum_list (map (cost o) cs))) = Nat.min umax (cost o (TOp op cs))).
    { cbn [cost]. unfold sat_add, op_cost. lia. }
    rewrite Hnext. unfold args_fit_b.
    destruct HL as [->| ->]; cbn [lim_table map_get]; [reflexivity|].
    destruct (map_get (op_limits o) (List.length cs, op)) as [lm|] eqn:El; [|reflexivity].
    destruct (w_lims _ _ _ W _ _ El) as [HlD Hlim].
    unfold costs. rewrite (over_limit_spec umax D); [|lia|apply (w_umax _ _ _ W)|exact Hlim]. cbn [bind].
    destruct (forallb _ (combine lm cs)); reflexivity.
Qed.

Lemma within_nil o t : within o [] t = true.
Proof.
  induction t as [f|i|op cs IH] using tree_ind'; auto. cbn. rewrite andb_true_r. apply forallb_forall.
  intros c Hc. rewrite Forall_forall in IH. auto.
Qed.

Lemma forallb_combine {A B} (f : A * B -> bool) (l : list A) (l' : list B) :
  forallb f (combine l l') = true <-> (forall j a b, nth_error l j = Some a -> nth_error l' j = Some b -> f (a, b) = true).
Proof.
  revert l'. induction l as [|x l IH]; intros [|y l']; cbn [combine forallb].
  - split; auto. intros _ [|j] a b; cbn; discriminate.
  - split; auto. intros _ [|j] a b; cbn; discriminate.
  - split; auto. intros _ [|j] a b; cbn; discriminate.
  - rewrite andb_true_iff, IH. split.
    + intros [H1 H2] [|j] a b; cbn; [intros [= <-] [= <-]; auto|apply H2].
    + intros H. split; [apply (H 0); reflexivity|]. intros j a b. apply (H (S j)).
Qed.

Lemma args_fit_node o op cs : args_fit_b o (op_limits o) op cs = true <->
  (forall lims j lim c, map_get (op_limits o) (List.length cs, op) = Some lims ->
    nth_error lims j = Some (Some lim) -> nth_error cs j = Some c -> cost o c <= lim).
Proof.
  unfold args_fit_b. destruct (map_get (op_limits o) (List.length cs, op)) as [lims|].
  - rewrite forallb_combine. split.
    + intros H lims' j lim c [= <-] H1 H2. specialize (H j _ _ H1 H2). cbn in H. apply Nat.leb_le in H. auto.
    + intros H j [lim|] c H1 H2; cbn; auto. apply Nat.leb_le. eauto.
  - split; auto. intros _ lims j lim c [=].
Qed.

Lemma within_spec o t : within o (op_limits o) t = true <-> args_fit o t.
Proof.
  induction t as [f|i|op cs IH] using tree_ind'.
  - split; auto. intros _ op cs lims j lim c Hs. inversion Hs.
  - split; auto. intros _ op cs lims j lim c Hs. inversion Hs.
  - cbn [within]. rewrite andb_true_iff, forallb_forall, args_fit_node. rewrite Forall_forall in IH. split.
    + intros [H1 H2] op' cs' lims j lim c Hs. inversion Hs as [|? ? ? d Hin Hsub]; subst.
      * intros. eapply H2; eauto.
      * apply IH in Hin as Hd. apply H1 in Hin. apply Hd in Hin. intros. eapply Hin; eauto.
    + intros H. split.
      * intros c Hc. apply IH; auto. intros op' cs' lims j lim d Hs. apply H. econstructor; eauto.
      * intros lims j lim c. apply H. constructor.
Qed.

(** ** Default complexity *)
Lemma default_cost o t : uses_default_complexity o = true -> cost o t = tsize t.
Proof.
  unfold uses_default_complexity. rewrite !andb_true_iff, !Nat.eqb_eq. intros [[[Hc Hv] Hvs] Ho].
  destruct (variable_complexities o) eqn:Ev; [discriminate|].
  destruct (operator_overrides o) eqn:Eo; [|discriminate].
  induction t as [f|i|op cs IH] using tree_ind'; cbn [cost tsize].
  - rewrite <- var_cost_spec. unfold var_cost. rewrite Ev. auto.
  - auto.
  - unfold op_cost. rewrite Eo. cbn. f_equal. f_equal. apply map_ext_in. rewrite Forall_forall in IH. auto.
Qed.

Lemma depth_le_size t : tdepth t <= tsize t.
Proof.
  induction t as [f|i|op cs IH] using tree_ind'; cbn; try lia. apply le_n_S.
  induction IH as [|c cs Hc _ IHcs]; cbn; lia.
Qed.

(** Values attached to every position, in post-order. *)
Fixpoint tvals {A} (f : tree -> A) (t : tree) : list A :=
  match t with
  | TOp _ cs => flat_map (tvals f) cs ++ [f t]
  | _ => [f t]
  end.

Lemma tvals_length {A} (f : tree -> A) t : List.length (tvals f t) = tsize t.
Proof.
  induction t as [v|i|o cs IH] using tree_ind'; cbn [tvals]; auto.
  rewrite app_length. cbn. rewrite Nat.add_1_r. f_equal.
  induction IH as [|c cs Hc _ IHcs]; cbn; auto. rewrite app_length. lia.
Qed.

Lemma tvals_at {A} (f : tree -> A) t i s : subtree_at t i s -> nth_error (tvals f t) i = Some (f s).
Proof.
  assert (Hlen : forall cs, List.length (flat_map (tvals f) cs) = sum_list (map tsize cs)).
  { induction cs as [|c cs IH]; cbn; auto. rewrite app_length, tvals_length. lia. }
  induction 1 as [t|op l c r i s H IH].
  - destruct t as [v|j|o cs]; try reflexivity. cbn [tvals].
    replace (tsize (TOp o cs) - 1) with (List.length (flat_map (tvals f) cs)) by (rewrite Hlen; cbn; lia).
    rewrite nth_error_app2, Nat.sub_diag by lia. reflexivity.
  - pose proof (subtree_at_lt _ _ _ H) as Hlt. cbn [tvals]. rewrite flat_map_app'. cbn [flat_map].
    rewrite <- app_assoc, nth_error_app2 by (rewrite Hlen; lia). rewrite Hlen. replace (_ + i - _) with i by lia.
    rewrite <- app_assoc, nth_error_app1 by (rewrite tvals_length; lia). exact IH.
Qed.

Lemma sub_subtree_at s t : subtree s t -> exists i, subtree_at t i s.
Proof.
  induction 1 as [t|s op cs c Hin Hs [i IH]].
  - eexists. constructor.
  - apply in_split in Hin as (l & r & ->). eexists. constructor. exact IH.
Qed.

Lemma node_at t i s : subtree_at t i s -> nth_error (flatten t) i = Some (root_node s).
Proof.
  intros H. destruct (subtree_at_spec _ _ _ H) as [_ (l & r & E & Hl)]. rewrite E.
  destruct (flatten_last s) as [l' El]. assert (List.length (flatten s) = tsize s) as Hs by apply flatten_length.
  rewrite El in *. rewrite app_length in Hs. cbn in Hs. rewrite <- app_assoc, app_assoc.
  rewrite nth_error_app2 by (rewrite app_length; lia). rewrite app_length.
  replace (i - _) with 0 by lia. reflexivity.
Qed.

Lemma at_node t i n : nth_error (flatten t) i = Some n -> exists s, subtree_at t i s /\ root_node s = n.
Proof.
  intros H. assert (i < tsize t). { rewrite <- flatten_length. apply nth_error_Some. congruence. }
  destruct (subtree_at_exists _ _ H0) as [s Hs]. exists s. split; auto. apply node_at in Hs. congruence.
Qed.

(** The loops over the nodes of the two checks. *)
Lemma default_args_loop_spec o t :
  (forall op l, map_get (op_limits o) op = Some l -> forall i cs p, subtree_at t i (TOp p cs) -> op = (List.length cs, p) ->
     exists b, (let! ranges := child_ranges (tsizes t) i (List.length cs) in args_within (tsizes t) ranges l (seq 0 (List.length cs))) = Ok b
       /\ (b = true <-> forall j lim c, nth_error l j = Some (Some lim) -> nth_error cs j = Some c -> tsize c <= lim)) ->
  exists b, default_args_loop o (tsizes t) (flatten t) 0 = Ok b /\
    (b = true <-> forall p cs l j lim c, subtree (TOp p cs) t -> map_get (op_limits o) (List.length cs, p) = Some l ->
       nth_error l j = Some (Some lim) -> nth_error cs j = Some c -> tsize c <= lim).
Proof.
  intros Hnode.
  assert (H : forall ns i0 pre, flatten t = pre ++ ns -> List.length pre = i0 ->
    exists b, default_args_loop o (tsizes t) ns i0 = Ok b /\
      (b = true <-> forall i p cs l j lim c, i0 <= i -> subtree_at t i (TOp p cs) -> map_get (op_limits o) (List.length cs, p) = Some l ->
       nth_error l j = Some (Some lim) -> nth_error cs j = Some c -> tsize c <= lim)).
  { induction ns as [|n ns IH]; intros i0 pre E Hl.
    - exists true. split; auto. split; auto. intros _ i p cs l j lim c Hi Hs. exfalso.
      apply subtree_at_lt in Hs. rewrite <- flatten_length, E, app_nil_r in Hs. lia.
    - assert (Hn : nth_error (flatten t) i0 = Some n).
      { rewrite E, nth_error_app2 by lia. subst i0. rewrite Nat.sub_diag. reflexivity. }
      destruct (at_node _ _ _ Hn) as (s & Hs & Hroot).
      destruct (IH (S i0) (pre ++ [n])) as (b & Eb & Hb).
      { rewrite E, <- app_assoc. reflexivity. } { rewrite app_length. cbn. lia. }
      assert (Hskip : (forall p cs l, s = TOp p cs -> map_get (op_limits o) (List.length cs, p) = Some l -> False) ->
         exists b, default_args_loop o (tsizes t) ns (S i0) = Ok b /\
      (b = true <-> forall i p cs l j lim c, i0 <= i -> subtree_at t i (TOp p cs) -> map_get (op_limits o) (List.length cs, p) = Some l ->
       nth_error l j = Some (Some lim) -> nth_error cs j = Some c -> tsize c <= lim)).
      { intros Hno. exists b. split; auto. rewrite Hb. split.
        - intros H i p cs l j lim c Hi Hs' Hg. destruct (Nat.eq_dec i i0) as [->|]; [|eapply (H i); eauto; lia].
          exfalso. assert (s = TOp p cs) by (eapply subtree_at_fun; eauto). eauto.
        - intros H i p cs l j lim c Hi. apply H. lia. }
      destruct s as [f|k|p cs]; cbn in Hroot; subst n; cbn [default_args_loop].
      + apply Hskip. discriminate.
      + apply Hskip. discriminate.
      + destruct (map_get (op_limits o) (List.length cs, p)) as [l|] eqn:El.
        2:{ apply Hskip. intros p' cs' l' [= <- <-] E'. congruence. }
        destruct (Hnode _ _ El _ _ _ Hs eq_refl) as (b' & Eb' & Hb').
        destruct (child_ranges (tsizes t) i0 (List.length cs)) as [ranges| |] eqn:Er; cbn [bind] in Eb'; try discriminate.
        cbn [bind]. rewrite Eb'. cbn [bind]. destruct b'.
        * exists b. split; auto. rewrite Hb. split.
          -- intros H i p' cs' l' j lim c Hi Hs' Hg. destruct (Nat.eq_dec i i0) as [->|]; [|eapply (H i); eauto; lia].
             assert (TOp p cs = TOp p' cs') as [= <- <-] by (eapply subtree_at_fun; eauto).
             rewrite El in Hg. injection Hg as <-. intros. eapply Hb'; eauto.
          -- intros H i p' cs' l' j lim c Hi. apply H. lia.
        * exists false. split; auto. split; [discriminate|]. intros H. apply Hb'. intros j lim c H1 H2. eapply H; eauto. }
  destruct (H (flatten t) 0 [] eq_refl eq_refl) as (b & Eb & Hb). exists b. split; auto. rewrite Hb. split.
  - intros H' p cs l j lim c Hs. apply sub_subtree_at in Hs as [i Hi]. apply (H' i); auto. lia.
  - intros H' i p cs l j lim c _ Hs. apply H'. eapply subtree_at_sub; eauto.
Qed.

Lemma args_within_spec t i op cs lims :
  subtree_at t i (TOp op cs) -> List.length cs <= List.length lims ->
  exists b, args_within (tsizes t) (spans (i + 1 - tsize (TOp op cs)) cs) lims (seq 0 (List.length cs)) = Ok b
    /\ (b = true <-> forall j lim c, nth_error lims j = Some (Some lim) -> nth_error cs j = Some c -> tsize c <= lim).
Proof.
  intros Hs Hl. set (st := i + 1 - tsize (TOp op cs)).
  assert (H : forall k n, k + n = List.length cs ->
    exists b, args_within (tsizes t) (spans st cs) lims (seq k n) = Ok b
    /\ (b = true <-> forall j lim c, k <= j -> nth_error lims j = Some (Some lim) -> nth_error cs j = Some c -> tsize c <= lim)).
  { intros k n. revert k. induction n as [|n IH]; intros k Hk.
    - exists true. split; auto. split; auto. intros _ j lim c Hj _ Hc.
      assert (j < List.length cs) by (apply nth_error_Some; congruence). lia.
    - cbn [seq args_within]. destruct (IH (S k)) as (b & Eb & Hb); [lia|].
      destruct (nth_error lims k) as [l|] eqn:El; [|apply nth_error_None in El; lia].
      destruct (nth_error cs k) as [c|] eqn:Ec; [|apply nth_error_None in Ec; lia].
      unfold index at 1. rewrite El. cbn [expect bind].
      assert (Hnext : (forall lim, l = Some lim -> tsize c <= lim) -> exists b, args_within (tsizes t) (spans st cs) lims (seq (S k) n) = Ok b
    /\ (b = true <-> forall j lim c, k <= j -> nth_error lims j = Some (Some lim) -> nth_error cs j = Some c -> tsize c <= lim)).
      { intros Hc. exists b. split; auto. rewrite Hb. split.
        - intros H j lim c' Hj H1 H2. destruct (Nat.eq_dec j k) as [->|]; [|eapply (H j); eauto; lia].
          rewrite El in H1. injection H1 as ->. rewrite Ec in H2. injection H2 as <-. auto.
        - intros H j lim c' Hj. apply H. lia. }
      destruct l as [lim|].
      2:{ apply Hnext. discriminate. }
      unfold index at 1. rewrite (spans_nth _ _ _ _ Ec). cbn [expect bind].
      assert (Hsplit : cs = firstn k cs ++ c :: skipn (S k) cs).
      { clear -Ec. revert cs Ec. induction k as [|k IH]; intros [|x cs] Ec; cbn in *; try discriminate.
        - injection Ec as ->. reflexivity.
        - f_equal. apply IH. auto. }
      assert (Hsub : subtree_at t (st + sum_list (map tsize (firstn k cs)) + tsize c - 1) c).
      { clear - Hs Hsplit. subst st. remember (firstn k cs) as l0. remember (skipn (S k) cs) as r0. clear Heql0 Heqr0.
        rewrite Hsplit in Hs |- *. pose proof (subtree_at_child _ _ _ _ _ _ Hs) as H.
        destruct (subtree_at_spec _ _ _ Hs) as (_ & l & r & _ & E). cbn [tsize] in *.
        rewrite map_app, sum_list_app in *. cbn [map sum_list] in *.
        match type of H with subtree_at _ ?i _ => match goal with |- subtree_at _ ?j _ => replace j with i; auto end end. }
      destruct (subtree_at_spec _ _ _ Hsub) as [Hsz _].
      unfold index at 1. rewrite Hsz. cbn [expect bind].
      destruct (Nat.ltb_spec lim (tsize c)).
      + exists false. split; auto. split; [discriminate|]. intros H'. specialize (H' k lim c (le_n k) El Ec). lia.
      + apply Hnext. intros ? [= <-]. auto. }
  destruct (H 0 (List.length cs) eq_refl) as (b & Eb & Hb). exists b. split; auto. rewrite Hb. split; intros H' j lim c.
  - apply H'. lia.
  - intros _. apply H'.
Qed.

Lemma check_default_args_spec umax D o t nf nc known :
  widths umax D o -> uses_default_complexity o = true -> tree_ok D nf nc known t ->
  exists b, check_default_args o (flatten t) = Ok b /\ (b = true <-> args_fit o t).
Proof.
  intros W Hd Hok. unfold check_default_args.
  assert (Hgo : exists b, (let! sizes := subtree_sizes (flatten t) in default_args_loop o sizes (flatten t) 0) = Ok b /\ (b = true <-> args_fit o t)).
  { rewrite subtree_sizes_flatten. cbn [bind].
    destruct (default_args_loop_spec o t) as (b & Eb & Hb).
    - intros op l Hg i cs p Hs ->. rewrite (child_ranges_flatten _ _ _ _ Hs). cbn [bind]. apply (args_within_spec t i p cs l Hs).
      destruct (w_lims _ _ _ W _ _ Hg) as [-> _]. apply subtree_at_sub in Hs.
      clear -Hs Hok. revert Hok. remember (TOp p cs) as s eqn:E. induction Hs as [t|s op cs' c Hin Hs IH]; intros Hok.
      + subst. cbn in Hok. tauto.
      + cbn in Hok. destruct Hok as (_ & _ & H). apply fold_right_and_Forall in H. rewrite Forall_forall in H. auto.
    - exists b. split; auto. rewrite Hb. unfold args_fit. split; intros H op cs l j lim c; specialize (H op cs l j lim c);
        rewrite (default_cost _ c Hd) in *; auto. }
  destruct (op_limits o) as [|m ms] eqn:Em; [|exact Hgo].
  exists true. split; auto. split; auto. intros _ op cs lims j lim c _. rewrite Em. discriminate.
Qed.

(** ** Nesting *)
(** Largest number of occurrences of [target] on a downward path. *)
Fixpoint nest (target : opid) (t : tree) : nat :=
  match t with
  | TOp op cs => (if opid_eqb (List.length cs, op) target then 1 else 0) + fold_right Nat.max 0 (map (nest target) cs)
  | _ => 0
  end.

Lemma fold_max_ub l x : In x l -> x <= fold_right Nat.max 0 l.
Proof. induction l as [|y l IH]; cbn; [tauto|]. intros [->|H]; [lia|]. apply IH in H. lia. Qed.

Lemma fold_max_in l : l = [] \/ In (fold_right Nat.max 0 l) l.
Proof.
  induction l as [|y l IH]; auto. right. cbn. destruct IH as [->|H]; cbn; [left; lia|].
  destruct (Nat.max_spec y (fold_right Nat.max 0 l)) as [[_ ->]|[_ ->]]; auto.
Qed.

Lemma nest_ub target t p : path t p -> occurrences target p <= nest target t.
Proof.
  induction 1 as [t|op cs c p Hin Hp IH]; cbn; [lia|].
  apply (in_map (nest target)) in Hin. apply fold_max_ub in Hin. lia.
Qed.

Lemma nest_attained target t nf nc D known : tree_ok D nf nc known t -> exists p, path t p /\ occurrences target p = nest target t.
Proof.
  induction t as [f|i|op cs IH] using tree_ind'; intros Hok; [exists []; split; [constructor|reflexivity]..|].
  cbn in Hok. destruct Hok as (Hl & _ & Hcs). apply fold_right_and_Forall in Hcs.
  destruct (fold_max_in (map (nest target) cs)) as [E|Hin].
  - destruct cs; [cbn in Hl; lia|discriminate].
  - apply in_map_iff in Hin as (c & Ec & Hin). rewrite Forall_forall in IH, Hcs.
    destruct (IH c Hin (Hcs c Hin)) as (p & Hp & Ho). exists ((List.length cs, op) :: p). split; [econstructor; eauto|].
    cbn. rewrite Ho, Ec. reflexivity.
Qed.

Lemma pop_max_app l st m : pop_max (List.length l) (rev l ++ st) m = Ok (Nat.max m (fold_right Nat.max 0 l), st).
Proof.
  revert st m. induction l as [|x l IH] using rev_ind; intros st m.
  - cbn. f_equal. f_equal. lia.
  - rewrite app_length. cbn [List.length]. rewrite Nat.add_1_r, rev_app_distr. cbn [rev app pop_max]. rewrite IH.
    f_equal. f_equal. rewrite fold_right_app. cbn. clear.
    assert (H : forall l a, fold_right Nat.max a l = Nat.max a (fold_right Nat.max 0 l)).
    { induction l0 as [|y l0 IH]; intros a; cbn; [lia|]. rewrite IH. lia. }
    rewrite (H l (Nat.max x 0)). lia.
Qed.

Definition snest (target : opid) (t : tree) : nat := Nat.min u16_max (nest target t).

Lemma nestedness_flatten target t : forall rest st out,
  nestedness_loop target (flatten t ++ rest) st out
  = nestedness_loop target rest (snest target t :: st) (out ++ tvals (snest target) t).
Proof.
  induction t as [f|i|op cs IH] using tree_ind'; intros rest st out.
  - cbn [flatten app nestedness_loop tvals]. unfold snest. cbn [nest]. rewrite Nat.min_0_r. reflexivity.
  - cbn [flatten app nestedness_loop tvals]. unfold snest. cbn [nest]. rewrite Nat.min_0_r. reflexivity.
  - cbn [flatten]. rewrite <- app_assoc.
    assert (Hcs : forall st out rest', nestedness_loop target (flat_map flatten cs ++ rest') st out
      = nestedness_loop target rest' (rev (map (snest target) cs) ++ st) (out ++ flat_map (tvals (snest target)) cs)).
    { clear rest st out. induction IH as [|c cs Hc _ IHcs]; intros st out rest'.
      - cbn. now rewrite app_nil_r.
      - cbn [flat_map map rev]. rewrite <- app_assoc, Hc, IHcs, <- !app_assoc. reflexivity. }
    rewrite Hcs. cbn [app nestedness_loop].
    destruct (Nat.ltb_spec (List.length (rev (map (snest target) cs) ++ st)) (List.length cs)) as [Hlt|_].
    { rewrite app_length, rev_length, map_length in Hlt. lia. }
    rewrite <- (map_length (snest target) cs) at 1. rewrite pop_max_app. cbn [bind].
    assert (E : sat_add u16_max (Nat.max 0 (fold_right Nat.max 0 (map (snest target) cs)))
                (if opid_eqb (List.length cs, op) target then 1 else 0) = snest target (TOp op cs)).
    { unfold sat_add, snest. cbn [nest].
      assert (H : fold_right Nat.max 0 (map (snest target) cs) = Nat.min u16_max (fold_right Nat.max 0 (map (nest target) cs))).
      { clear. unfold snest. induction cs as [|c cs IH]; cbn; [lia|]. rewrite IH. lia. }
      unfold snest in H. rewrite H. destruct (opid_eqb _ _); lia. }
    rewrite E. cbn [tvals]. rewrite <- app_assoc. reflexivity.
Qed.

Lemma nestedness_vec_flatten target t : nestedness_vec (flatten t) target = Ok (Some (tvals (snest target) t)).
Proof. unfold nestedness_vec. rewrite <- (app_nil_r (flatten t)), nestedness_flatten. reflexivity. Qed.

Lemma fill_cache_spec t targets : forall cache,
  (forall k v, map_get cache k = Some v -> v = tvals (snest k) t) ->
  exists cache', fill_cache (flatten t) targets cache = Ok (Some cache')
    /\ (forall k v, map_get cache' k = Some v -> v = tvals (snest k) t)
    /\ (forall k, In k targets \/ map_get cache k <> None -> map_get cache' k <> None).
Proof.
  induction targets as [|x targets IH]; intros cache Hc; cbn [fill_cache].
  - exists cache. split; auto. split; auto. intros k [[]|H]; auto.
  - destruct (map_get cache x) eqn:Ex.
    + destruct (IH cache Hc) as (c' & E & H1 & H2). exists c'. split; auto. split; auto.
      intros k [[->|H]|H]; auto. apply H2. right. congruence.
    + rewrite nestedness_vec_flatten. cbn [bind].
      destruct (IH (map_set cache x (tvals (snest x) t))) as (c' & E & H1 & H2).
      { intros k v. rewrite map_get_set. destruct (opid_eqb x k) eqn:E; [|apply Hc].
        apply opid_eqb_eq in E as ->. intros [= <-]. auto. }
      exists c'. split; auto. split; auto.
      assert (Hx : map_get (map_set cache x (tvals (snest x) t)) x <> None).
      { rewrite map_get_set, (proj2 (opid_eqb_eq x x) eq_refl). discriminate. }
      intros k [[->|H]|H]; auto. apply H2. right. rewrite map_get_set. destruct (opid_eqb x k); [discriminate|auto].
Qed.

Lemma nested_loop_spec o cache ns : forall i0,
  nested_loop o cache ns i0 = true <->
  (forall i a op rules, nth_error ns i = Some (Op a op) -> map_get (nested_limits o) (a, op) = Some rules ->
     forallb (rule_ok cache (a, op) (i0 + i)) rules = true).
Proof.
  induction ns as [|n ns IH]; intros i0; cbn [nested_loop].
  - split; auto. intros _ [|i]; discriminate.
  - assert (Hskip : (forall a op rules, n = Op a op -> map_get (nested_limits o) (a, op) = Some rules ->
                        forallb (rule_ok cache (a, op) i0) rules = true) ->
        (nested_loop o cache ns (S i0) = true <->
         (forall i a op rules, nth_error (n :: ns) i = Some (Op a op) -> map_get (nested_limits o) (a, op) = Some rules ->
            forallb (rule_ok cache (a, op) (i0 + i)) rules = true))).
    { intros Hn. rewrite IH. split.
      - intros H [|i] a op rules E Hg; cbn in E.
        + rewrite Nat.add_0_r. injection E as ->. eauto.
        + rewrite <- Nat.add_succ_comm. eauto.
      - intros H i a op rules E Hg. rewrite Nat.add_succ_comm. apply (H (S i)); auto. }
    destruct n as [f|k|a op]; [apply Hskip; discriminate..|].
    destruct (map_get (nested_limits o) (a, op)) as [rules|] eqn:Er.
    + destruct (forallb (rule_ok cache (a, op) i0) rules) eqn:Ef.
      * apply Hskip. intros a' op' rules' [= <- <-]. rewrite Er. intros [= <-]. auto.
      * split; [discriminate|]. intros H. specialize (H 0 a op rules eq_refl Er). rewrite Nat.add_0_r in H. congruence.
    + apply Hskip. intros a' op' rules' [= <- <-]. rewrite Er. discriminate.
Qed.

Lemma map_get_in {V} (m : list (opid * V)) k v : map_get m k = Some v -> In (k, v) m.
Proof.
  induction m as [|[k' v'] m IH]; cbn; [discriminate|]. destruct (opid_eqb k' k) eqn:E; auto.
  intros [= <-]. apply opid_eqb_eq in E as ->. auto.
Qed.

Lemma u8_lt_u16 : u8_max + 2 < u16_max.
Proof. unfold u8_max, u16_max. lia. Qed.

Lemma rule_ok_spec cache t i op cs nested max_n :
  subtree_at t i (TOp op cs) -> map_get cache nested = Some (tvals (snest nested) t) -> max_n <= u8_max ->
  rule_ok cache (List.length cs, op) i (nested, max_n) = true <-> (forall c, In c cs -> nest nested c <= max_n).
Proof.
  intros Hs Hc Hm. unfold rule_ok. rewrite Hc, (tvals_at _ _ _ _ Hs). unfold snest. cbn [nest].
  rewrite negb_true_iff, Nat.ltb_ge. pose proof u8_lt_u16.
  assert (Hx : fold_right Nat.max 0 (map (nest nested) cs) <= max_n <-> (forall c, In c cs -> nest nested c <= max_n)).
  { split.
    - intros H1 c Hin. apply (in_map (nest nested)) in Hin. apply fold_max_ub in Hin. lia.
    - intros H1. destruct (fold_max_in (map (nest nested) cs)) as [->|Hin]; [cbn; lia|].
      apply in_map_iff in Hin as (c & <- & Hin). auto. }
  rewrite <- Hx. set (m := fold_right Nat.max 0 (map (nest nested) cs)) in *.
  destruct (opid_eqb (List.length cs, op) nested); cbn [andb].
  - destruct (Nat.ltb_spec 0 (Nat.min u16_max (1 + m))); lia.
  - lia.
Qed.

Lemma check_nested_spec umax D o t nf nc known :
  widths umax D o -> tree_ok D nf nc known t ->
  exists b, check_nested o (flatten t) = Ok b /\ (b = true <-> nesting_fits o t).
Proof.
  intros W Hok. unfold check_nested.
  destruct (nested_limits o) as [|m ms] eqn:Em.
  { exists true. split; auto. split; auto. intros _ op cs rules nested max_n c p _. rewrite Em. discriminate. }
  rewrite <- Em. clear m ms Em.
  destruct (fill_cache_spec t (map fst (flat_map snd (nested_limits o))) []) as (cache & E & H1 & H2); [discriminate|].
  rewrite E. cbn [bind]. eexists. split; [reflexivity|]. rewrite nested_loop_spec. cbn [Nat.add].
  assert (Hget : forall op rules nested max_n, map_get (nested_limits o) op = Some rules -> In (nested, max_n) rules ->
     map_get cache nested = Some (tvals (snest nested) t)).
  { intros op rules nested max_n Hg Hin. destruct (map_get cache nested) as [v|] eqn:Ev.
    - f_equal. eauto.
    - exfalso. revert Ev. apply H2. left. apply in_map_iff. exists (nested, max_n). split; auto.
      apply in_flat_map. exists (op, rules). split; auto. apply map_get_in; auto. }
  split.
  - intros H op cs rules nested max_n c p Hsub Hg Hin Hc Hp.
    apply sub_subtree_at in Hsub as [i Hi]. pose proof (node_at _ _ _ Hi) as Hn. cbn in Hn.
    specialize (H i _ _ _ Hn Hg). rewrite forallb_forall in H. specialize (H _ Hin).
    rewrite (rule_ok_spec cache t i op cs nested max_n Hi (Hget _ _ _ _ Hg Hin) (w_nested _ _ _ W _ _ _ Hg Hin)) in H.
    specialize (H c Hc). apply (nest_ub nested) in Hp. lia.
  - intros H i a op rules Hn Hg. apply forallb_forall. intros [nested max_n] Hin.
    destruct (at_node _ _ _ Hn) as (s & Hs & Hroot). destruct s as [|?|op' cs]; try discriminate. cbn in Hroot. injection Hroot as <- <-.
    rewrite (rule_ok_spec cache t i op' cs nested max_n Hs (Hget _ _ _ _ Hg Hin) (w_nested _ _ _ W _ _ _ Hg Hin)).
    intros c Hc. assert (Hokc : tree_ok D nf nc known c).
      { apply subtree_at_sub in Hs. clear -Hs Hok Hc. revert Hok. remember (TOp op' cs) as s eqn:E.
        induction Hs as [t|s op cs' d Hin Hs IH]; intros Hok.
        - subst. cbn in Hok. destruct Hok as (_ & _ & H). apply fold_right_and_Forall in H. rewrite Forall_forall in H. auto.
        - cbn in Hok. destruct Hok as (_ & _ & H). apply fold_right_and_Forall in H. rewrite Forall_forall in H. auto. }
      destruct (nest_attained nested c _ _ _ _ Hokc) as (p & Hp & <-). apply (H op' cs rules nested max_n c p); auto. eapply subtree_at_sub; eauto.
Qed.
