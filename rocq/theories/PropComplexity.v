(** Properties C22-C23: complexity and constraints. *)
From Verif Require Import Base BaseLemmas Node Tree NodeProofs SpanProofs Registry Complexity ComplexitySpec ComplexityProofs.

(** Cost of one node of the postfix form. *)
Definition node_cost (o : size_opts) (n : pnode) : nat :=
  match n with
  | Var f => feature_cost o f
  | Const _ => complexity_of_constants o
  | Op a op => op_cost o (a, op)
  end.

Lemma cost_nodes o t : cost o t = sum_list (map (node_cost o) (flatten t)).
Proof.
  induction t as [f|i|op cs IH] using tree_ind'; cbn; [lia..|].
  rewrite map_app, sum_list_app. cbn. rewrite Nat.add_0_r, Nat.add_comm. f_equal.
  induction IH as [|c cs Hc _ IHcs]; cbn; auto. rewrite map_app, sum_list_app. lia.
Qed.

(** C22: the complexity of a valid expression is the sum of the configured costs of its nodes, saturating at
    [usize::MAX]; a table that gives every node cost 1 is the default. No input panics. *)
Theorem C22_complexity_is_node_cost_sum :
  forall (T : Type) (umax D nf : nat) (known : nat -> nat -> bool) (o : size_opts) (e : expr T),
  widths umax D o -> expr_ok D nf known e -> List.length (nodes e) <= umax ->
  compute_complexity umax D o (nodes e) = Ok (Nat.min umax (sum_list (map (node_cost o) (nodes e)))).
Proof.
  intros T umax D nf known o e W (t & Hr & Hok) Hlen. unfold represents in Hr. rewrite Hr in *. rewrite <- cost_nodes.
  unfold compute_complexity. destruct (uses_default_complexity o) eqn:Ed.
  - rewrite (default_cost _ _ Ed). rewrite flatten_length in *. f_equal. lia.
  - unfold custom_complexity_checked. rewrite <- (app_nil_r (flatten t)).
    rewrite (complexity_loop_flatten umax D o None t W (or_introl eq_refl) _ _ _ Hok).
    cbn [lim_table]. rewrite within_nil. reflexivity.
Qed.

(** Without custom costs it is the number of nodes. *)
Theorem C22_default_is_node_count : forall (umax D : nat) (o : size_opts) (ns : list pnode),
  complexity_of_constants o = 1 -> complexity_of_variables o = 1 -> variable_complexities o = None ->
  operator_overrides o = [] ->
  compute_complexity umax D o ns = Ok (List.length ns).
Proof.
  intros umax D o ns H1 H2 H3 H4. unfold compute_complexity, uses_default_complexity. rewrite H1, H2, H3, H4. reflexivity.
Qed.

(** It does not depend on the shape: expressions with the same nodes in another order have the same complexity. *)
Theorem C22_shape_independent :
  forall (T : Type) (umax D nf : nat) (known : nat -> nat -> bool) (o : size_opts) (e e' : expr T),
  widths umax D o -> expr_ok D nf known e -> expr_ok D nf known e' -> List.length (nodes e) <= umax ->
  Permutation (nodes e) (nodes e') ->
  compute_complexity umax D o (nodes e) = compute_complexity umax D o (nodes e').
Proof.
  intros T umax D nf known o e e' W H1 H2 Hl HP. rewrite (C22_complexity_is_node_cost_sum T umax D nf known o e) by auto.
  rewrite (C22_complexity_is_node_cost_sum T umax D nf known o e') by (auto; rewrite <- (Permutation_length HP); auto).
  do 2 f_equal. apply (Permutation_map (node_cost o)) in HP. induction HP; cbn; lia.
Qed.

(** C23: the check never panics on a valid expression and accepts exactly the feasible ones. *)
Theorem C23_check_constraints_exact :
  forall (T : Type) (umax D nf : nat) (known : nat -> nat -> bool) (stale : list nat) (o : size_opts)
    (curmaxsize : nat) (e : expr T) (t : tree),
  widths umax D o -> curmaxsize < umax ->
  represents e t -> tree_ok D nf (List.length (consts e)) known t ->
  exists b, check_constraints umax D stale o e curmaxsize = Ok b /\ (b = true <-> feasible o curmaxsize t).
Proof.
  intros T umax D nf known stale o cm e t W Hcm Hr Hok. unfold represents in Hr. unfold check_constraints, feasible. rewrite Hr.
  destruct (check_nested_spec umax D o t _ _ _ W Hok) as (bn & En & Hn).
  destruct (uses_default_complexity o) eqn:Ed; cbn [negb].
  - rewrite orb_false_r. rewrite (default_cost _ t Ed). pose proof (depth_le_size t) as Hds.
    destruct (check_default_args_spec umax D o t _ _ _ W Ed Hok) as (ba & Ea & Ha).
    assert (Hrest : tdepth t <= maxdepth o \/ cm <= maxdepth o -> exists b : bool,
       (if cm <? List.length (flatten t) then Ok false
        else let! ok := check_default_args o (flatten t) in if ok then check_nested o (flatten t) else Ok false) = Ok b
       /\ (b = true <-> tdepth t <= maxdepth o /\ tsize t <= cm /\ args_fit o t /\ nesting_fits o t)).
    { intros Hor. rewrite flatten_length. destruct (Nat.ltb_spec cm (tsize t)).
      - exists false. split; auto. split; [discriminate|]. lia.
      - rewrite Ea. cbn [bind]. destruct ba.
        + rewrite En. exists bn. split; auto. rewrite Hn. assert (args_fit o t) by (apply Ha; auto). split; [|tauto].
          intros. repeat split; auto; lia.
        + exists false. split; auto. split; [discriminate|]. intros (_ & _ & H1 & _). apply Ha in H1. discriminate. }
    destruct (Nat.ltb_spec (maxdepth o) cm).
    + rewrite count_depth_flatten. cbn [bind]. destruct (Nat.ltb_spec (maxdepth o) (tdepth t)).
      * exists false. split; auto. split; [discriminate|]. lia.
      * apply Hrest. auto.
    + cbn [bind]. apply Hrest. auto.
  - rewrite orb_true_r, count_depth_flatten. cbn [bind]. destruct (Nat.ltb_spec (maxdepth o) (tdepth t)).
    + exists false. split; auto. split; [discriminate|]. lia.
    + unfold custom_complexity_checked. pose proof (complexity_loop_flatten umax D o _ t W (or_intror eq_refl) _ _ _ Hok [] []) as El.
      rewrite app_nil_r in El. cbn [lim_table] in El. rewrite El.
      pose proof (within_spec o t) as Hw. destruct (within o (op_limits o) t).
      * cbn [complexity_loop bind]. destruct (Nat.ltb_spec cm (Nat.min umax (cost o t))).
        -- exists false. split; auto. split; [discriminate|]. lia.
        -- rewrite En. exists bn. split; auto. rewrite Hn. assert (args_fit o t) by (apply Hw; auto). split; [|tauto].
           intros. repeat split; auto; lia.
      * cbn [bind]. exists false. split; auto. split; [discriminate|]. intros (_ & _ & H1 & _). apply Hw in H1. discriminate.
Qed.

(** The setters record exactly the requested limits: the last value set for an argument wins, all others stay, and
    nesting rules accumulate. *)
Theorem C23_setters :
  forall (D : nat) (m : list (opid * list (option nat))) (op : opid) (arg lim : nat),
  arg < D -> (forall k l, map_get m k = Some l -> List.length l = D) ->
  exists m', set_op_arg_constraint D m op arg lim = Ok m'
    /\ (forall k l, map_get m' k = Some l -> List.length l = D)
    /\ (forall k j, (match map_get m' k with Some l => nth j l None | None => None end)
                  = if opid_eqb op k && (j =? arg) then Some lim
                    else match map_get m k with Some l => nth j l None | None => None end).
Proof.
  intros D m op arg lim Ha Hm. unfold set_op_arg_constraint. destruct (Nat.ltb_spec arg D); [|lia]. cbn [assert_ bind].
  set (entry := match map_get m op with Some l => l | None => fill D None end).
  assert (Hlen : List.length entry = D).
  { subst entry. destruct (map_get m op) eqn:E; [eauto|]. apply repeat_length. }
  unfold set_index. rewrite Hlen. destruct (Nat.ltb_spec arg D); [|lia]. cbn [bind].
  eexists. split; [reflexivity|]. split.
  - intros k l. rewrite map_get_set. destruct (opid_eqb op k); eauto. intros [= <-]. rewrite upd_length. auto.
  - intros k j. rewrite map_get_set. destruct (opid_eqb op k) eqn:E; cbn [andb]; [|reflexivity].
    apply opid_eqb_eq in E as <-.
    destruct (Nat.eqb_spec j arg) as [->|Hj].
    + rewrite (nth_error_nth _ _ _ (nth_error_upd_same entry arg (Some lim) ltac:(lia))). reflexivity.
    + assert (nth j (upd entry arg (Some lim)) None = nth j entry None) as ->.
      { destruct (nth_error entry j) as [x|] eqn:Ex.
        - rewrite (nth_error_nth entry j None Ex). apply nth_error_nth. rewrite nth_error_upd_other; auto.
        - rewrite nth_overflow by (rewrite upd_length; now apply nth_error_None). symmetry. apply nth_overflow. now apply nth_error_None. }
      subst entry. destruct (map_get m op); [reflexivity|]. unfold fill. destruct (Nat.lt_ge_cases j D).
      * apply nth_repeat.
      * apply nth_overflow. rewrite repeat_length. auto.
Qed.

Theorem C23_nested_setter : forall m root nested k max_n,
  map_get (add_nested_constraint m root nested max_n) k
  = if opid_eqb root k then Some (match map_get m root with Some l => l | None => [] end ++ [(nested, max_n)])
    else map_get m k.
Proof. intros. unfold add_nested_constraint. apply map_get_set. Qed.

(** ** A concrete case: x1 * sin(sin(x0 + 3)), costs 2 per constant and 3 per multiplication, 64-bit [usize]. *)
Definition usize_max64 : nat := N.to_nat 18446744073709551615.
Definition demo_opts : size_opts :=
  mkSizeOpts 2 1 (Some [5; 1]) [((2, 1), 3)] 5 [((2, 1), [Some 4; None])] [((1, 0), [((1, 0), 1)]); ((2, 1), [((1, 0), 2)])].
Definition demo_tree : tree := TOp 1 [TVar 1; TOp 0 [TOp 0 [TOp 0 [TVar 0; TConst 0]]]].
Definition demo_e : expr Z := mkExpr (flatten demo_tree) [3%Z] [].

Example C22_case : compute_complexity usize_max64 2 demo_opts (nodes demo_e) = Ok 14
  /\ widths usize_max64 2 demo_opts /\ expr_ok 2 2 (fun _ _ => true) demo_e.
Proof.
  assert (W : widths usize_max64 2 demo_opts).
  { split; try (unfold u16_max, u8_max, usize_max64; cbn; lia).
    - intros v c [= <-]. cbn. unfold u16_max. intros [<-|[<-|[]]]; lia.
    - intros op c. cbn. destruct (opid_eqb _ _); [|discriminate]. intros [= <-]. unfold u16_max. lia.
    - intros op l. cbn. destruct (opid_eqb _ _); [|discriminate]. intros [= <-]. split; auto.
      intros lim [[= <-]|[[=]|[]]]. unfold u16_max. lia.
    - intros op l r. cbn. destruct (opid_eqb (1, 0) op); [intros [= <-] [<-|[]]; unfold u8_max; cbn; lia|].
      destruct (opid_eqb _ _); [intros [= <-] [<-|[]]; unfold u8_max; cbn; lia|discriminate]. }
  assert (Hok : expr_ok 2 2 (fun _ _ => true) demo_e).
  { exists demo_tree. split; [reflexivity|]. cbn. intuition lia. }
  split; [|split; assumption]. rewrite (C22_complexity_is_node_cost_sum Z usize_max64 2 2 (fun _ _ => true)); try assumption.
  - reflexivity.
  - cbn. unfold usize_max64. lia.
Qed.

(** Complexity 14 is accepted exactly from the limit 14 on; one more sin around the tree violates the nesting rule. *)
Example C23_case : forall cm, cm < usize_max64 ->
  exists b, check_constraints usize_max64 2 [] demo_opts demo_e cm = Ok b /\ (b = true <-> 14 <= cm).
Proof.
  intros cm Hcm. destruct C22_case as (_ & W & _).
  destruct (C23_check_constraints_exact Z usize_max64 2 2 (fun _ _ => true) [] demo_opts cm demo_e demo_tree) as (b & E & Hb); auto.
  { reflexivity. } { cbn. intuition lia. }
  exists b. split; auto. rewrite Hb. unfold feasible. split; [intros (_ & H & _); exact H|]. intros H.
  split; [cbn; lia|]. split; [exact H|].
  rewrite <- within_spec. split; [reflexivity|].
  destruct (check_nested_spec usize_max64 2 demo_opts demo_tree 2 1 (fun _ _ => true)) as (bn & En & Hn); auto.
  { cbn. intuition lia. }
  apply Hn. vm_compute in En. congruence.
Qed.

Example C23_case_nesting : nesting_fits demo_opts (TOp 0 [demo_tree]) -> False.
Proof.
  intros H.
  specialize (H 0 [demo_tree] [((1, 0), 1)] (1, 0) 1 demo_tree [(2, 1); (1, 0); (1, 0)]).
  cbn in H. enough (2 <= 1) by lia. apply H.
  - constructor.
  - reflexivity.
  - auto.
  - auto.
  - apply (path_down 1 [TVar 1; TOp 0 [TOp 0 [TOp 0 [TVar 0; TConst 0]]]] (TOp 0 [TOp 0 [TOp 0 [TVar 0; TConst 0]]])); [cbn; auto|].
    apply (path_down 0 [_]) with (c := TOp 0 [TOp 0 [TVar 0; TConst 0]]); [cbn; auto|].
    apply (path_down 0 [_]) with (c := TOp 0 [TVar 0; TConst 0]); [cbn; auto|]. constructor.
Qed.

Print Assumptions C22_complexity_is_node_cost_sum.
Print Assumptions C23_check_constraints_exact.
Print Assumptions C23_setters.
