(** Property C73: a search sees the data only through the losses of formulas, and the derivatives of the losses in the constants. *)
From Coq Require Import Permutation QArith.
From Verif Require Import Base BaseLemmas Node Tree NodeProofs SpanProofs Compile CompileProofs Eval EvalProofs EvalTop Deriv DerivSpec DerivTop DerivReach PropEval
  Rng Registry Lit Complexity ComplexitySpec PropComplexity Num Member Selection Dataset PropDataset Loss PropLoss Optim PropOptimTotal ConstOpt PropConstOpt Evolution PropEvolution Search PropSearch
  PropIds Invariant PropWhole PropPanic PropLive Instances Simulate View ViewSearch.
Local Open Scope nat_scope.

(** ** Specification *)

(** What a caller can observe of two searches is the same: hall of fame, best member, the members of each population and which populations are out, the best members
    offered for migration, counts and size statistics. *)
Record same_outcome {T} (a b : search_st T) : Prop := {
  so_hall : ss_hall a = ss_hall b;
  so_best : ss_best a = ss_best b;
  so_members : map (option_map ps_pop) (ss_pops a) = map (option_map ps_pop) (ss_pops b);
  so_subs : ss_subs a = ss_subs b;
  so_evals : ss_evals a = ss_evals b;
  so_started : ss_started a = ss_started b;
  so_completed : ss_completed a = ss_completed b;
  so_stats : ss_stats a = ss_stats b }.

(** [d'] lists the rows of [d] (features, target and weight) in another order. *)
Definition reordered {T} (d d' : dataset T) : Prop :=
  ds_n_features d' = ds_n_features d /\ ds_n_rows d' = ds_n_rows d /\ (weighted d <-> weighted d')
  /\ exists sigma, Permutation sigma (seq 0 (ds_n_rows d)) /\ forall i j, nth_error sigma i = Some j -> same_row d' i d j.

(** The formulas of the search [S0] on data with the features of [d], told apart by the hash of the evaluation plans. *)
Definition formulas {T W} (S0 : search_cfg T W) (d : dataset T) (B : nat) : expr T -> Prop := wf_expr (sc_E S0) (ds_n_features d) B.
Definition hash_apart {T W} (S0 : search_cfg T W) (d : dataset T) (B : nat) : Prop :=
  forall ns, seen S0 d B ns -> told_apart (ec_hash (eo_C (sc_E S0))) (seen S0 d B) ns.

(** ** The whole search *)
Lemma live_other {T W} (S0 : search_cfg T W) (d d' : dataset T) B : live S0 d B -> data_ok d' -> sc_batching S0 = false -> ds_n_features d' = ds_n_features d -> live S0 d' B.
Proof.
  intros [A1 A2 A3 A4 A5 A6 A7 A8 A9 A10 A11 A12 A13] Hd Hb Hnf. split; auto.
  - destruct A1 as [K1 K2 K3]. split; auto. rewrite Hnf. exact K1.
  - rewrite Hnf. exact A9.
Qed.

Lemma rst_outcome {T W} (S0 : search_cfg T W) d d' B a b : rst S0 d d' B a b -> same_outcome a b.
Proof.
  intros [P1 P2 P3 P4 P5 P6 P7 P8 P9]. split; auto. clear - P1. induction P1 as [|x y l l' Hxy _ IH]; cbn; auto. rewrite IH. f_equal.
  destruct x, y; cbn in *; auto; try contradiction. f_equal. apply Hxy.
Qed.

Theorem C73_parallel : forall (T W : Type) (S0 : search_cfg T W) d d' B threads bl,
  live S0 d B -> data_ok d' -> sc_batching S0 = false -> hash_apart S0 d B -> same_view (eo_C (sc_E S0)) (formulas S0 d B) d d' ->
  baseline_for S0 d = baseline_for S0 d'
  /\ exists st0 st0', init_search S0 d bl = Ok st0 /\ init_search S0 d' bl = Ok st0' /\ same_outcome st0 st0'
     /\ forall es c, csteps S0 d bl (n_workers S0 threads) (parallel_start S0 st0) es c ->
        exists c', csteps S0 d' bl (n_workers S0 threads) (parallel_start S0 st0') es c' /\ same_outcome (co_st c) (co_st c') /\ (finished c <-> finished c').
Proof.
  intros T W S0 d d' B th bl L Hd Hb Hh V. pose proof (live_other S0 d d' B L Hd Hb (sv_features _ _ _ _ V)) as L'.
  split; [exact (baseline_sim S0 d d' B L L' V)|]. destruct (init_live S0 d bl B L) as (st & Es & Hl). pose proof (init_sim S0 d d' bl B L L' V Hb) as Hi. rewrite Es in Hi.
  destruct (init_search S0 d' bl) as [st'| |] eqn:Es'; cbn in Hi; try contradiction. exists st, st'. split; auto. split; auto. split; [eapply rst_outcome; eauto|]. intros es c Hc.
  destruct (csteps_sim S0 d d' bl B L L' V Hb Hh _ _ _ _ Hc (parallel_start S0 st')) as (c' & K1 & K2 & K3 & K4 & K5).
  - split; [exact Hl|split; cbn; tauto].
  - split; [exact Hi|cbn; auto].
  - exists c'. split; auto. split; [eapply rst_outcome; eauto|]. unfold finished. rewrite K3, K4. apply f2len in K5. destruct (co_flight c), (co_flight c'); cbn in K5; try lia; intuition congruence.
Qed.

(** The stepwise engine: any sequence of [step] calls gives the same reports, and [run_to_completion] ends in the same outcome. *)
Theorem C73_engine : forall (T W : Type) (S0 : search_cfg T W) d d' B,
  live S0 d B -> data_ok d' -> sc_batching S0 = false -> hash_apart S0 d B -> same_view (eo_C (sc_E S0)) (formulas S0 d B) d d' ->
  exists en en', engine_new S0 d = Ok en /\ engine_new S0 d' = Ok en' /\ same_outcome (en_st en) (en_st en')
    /\ (forall ns, agree (fun p q => same_outcome (en_st (fst p)) (en_st (fst q)) /\ snd p = snd q) (steps S0 en ns) (steps S0 en' ns))
    /\ (forall fuel, agree (fun p q => same_outcome (en_st p) (en_st q)) (run_loop S0 fuel en) (run_loop S0 fuel en')).
Proof.
  intros T W S0 d d' B L Hd Hb Hh V. pose proof (live_other S0 d d' B L Hd Hb (sv_features _ _ _ _ V)) as L'.
  destruct (baseline_live S0 d B L) as [bl Eb]. pose proof (baseline_sim S0 d d' B L L' V) as Eb'. rewrite Eb in Eb'.
  destruct (init_live S0 d bl B L) as (st & Es & Hl). pose proof (init_sim S0 d d' bl B L L' V Hb) as Hi. rewrite Es in Hi.
  destruct (init_search S0 d' bl) as [st'| |] eqn:Es'; cbn in Hi; try contradiction.
  exists (mkEngine st d bl 0 [] 0), (mkEngine st' d' bl 0 [] 0). unfold engine_new. rewrite Eb, <- Eb'. cbn [bind]. rewrite Es, Es'. cbn [bind]. split; auto. split; auto.
  split; [eapply rst_outcome; eauto|].
  assert (HR : ren S0 d d' bl B (mkEngine st d bl 0 [] 0) (mkEngine st' d' bl 0 [] 0)).
  { split; [exact Hi|]. cbn. repeat (split; auto). intros i []. }
  split.
  - intros ns. revert HR. generalize (mkEngine st d bl 0 [] 0) (mkEngine st' d' bl 0 [] 0). induction ns as [|n ns IH]; intros a b HR; cbn [steps].
    + cbn. split; auto. eapply rst_outcome. apply HR.
    + eapply agree_bind; [apply (step_loop_sim S0 d d' bl B L L' V Hb Hh); exact HR|]. intros [a1 k1] [b1 k2] _ _ [H1 Hk]. cbn [fst snd] in *. subst k2.
      eapply agree_bind; [apply IH; exact H1|]. intros [a2 l1] [b2 l2] _ _ [H2 Hl2]. cbn [fst snd] in *. subst l2. cbn. auto.
  - intros fuel. eapply agree_impl; [|apply (run_loop_sim S0 d d' bl B L L' V Hb Hh); exact HR]. intros a b _ _ H. eapply rst_outcome. apply H.
Qed.

(** It does not matter which of the two datasets comes first. *)
Theorem C73_symmetric : forall (T W : Type) (S0 : search_cfg T W) d d' B,
  live S0 d B -> data_ok d' -> sc_batching S0 = false -> hash_apart S0 d B -> same_view (eo_C (sc_E S0)) (formulas S0 d B) d d' ->
  live S0 d' B /\ data_ok d /\ hash_apart S0 d' B /\ same_view (eo_C (sc_E S0)) (formulas S0 d' B) d' d.
Proof.
  intros T W S0 d d' B L Hd Hb Hh V. pose proof (sv_features _ _ _ _ V) as Hnf. split; [eapply live_other; eauto|]. split; [apply L|]. split.
  - unfold hash_apart, seen in *. rewrite Hnf. exact Hh.
  - unfold formulas. rewrite Hnf. destruct V as [V1 V2 V3 V4 V5]. split; auto.
    + intros e t H1 H2. symmetry. auto.
    + intros e t H1 H2 H3. symmetry. apply V3; auto. apply V2; auto.
    + intros e t H1 H2 H3. symmetry. apply V4; auto. apply V2; auto.
    + intros e t out out' dl dl' ci H1 H2 H3 H4 H5 H6 H7 H8. symmetry. eapply (V5 e t out' out dl' dl); eauto. apply V2; auto.
Qed.

(** ** Rows *)

(** A formula reads only the features of its row. *)
Lemma teval_row {T} (O : OpSet T) D nf nc known var var' cst : (forall f, f < nf -> var f = var' f) -> forall t, tree_ok D nf nc known t -> teval O var cst t = teval O var' cst t.
Proof.
  intros H. induction t as [f|i|op ts IH] using tree_ind'; intros Ht; cbn [teval tree_ok] in *; auto. destruct Ht as (_ & _ & Ht). f_equal.
  induction IH as [|t ts Hc _ IHl]; cbn in *; auto. destruct Ht as [H1 H2]. f_equal; auto.
Qed.
Lemma map_teval_row {T} (O : OpSet T) D nf nc known var var' cst : (forall f, f < nf -> var f = var' f) -> forall ts, fold_right and True (map (tree_ok D nf nc known) ts) ->
  map (teval O var cst) ts = map (teval O var' cst) ts.
Proof. intros H. induction ts as [|t ts IH]; cbn; auto. intros [H1 H2]. f_equal; auto. eapply teval_row; eauto. Qed.
Lemma tfinite_row {T} (F : FloatOps T) (O : OpSet T) D nf nc known var var' cst : (forall f, f < nf -> var f = var' f) -> forall t, tree_ok D nf nc known t ->
  tfinite F O var cst t = tfinite F O var' cst t.
Proof.
  intros H. induction t as [f|i|op ts IH] using tree_ind'; intros Ht; cbn [tfinite tree_ok] in *; auto. destruct Ht as (_ & _ & Ht).
  rewrite (map_teval_row O D nf nc known var var' cst H ts Ht). f_equal. clear - IH Ht.
  induction IH as [|t ts Hc _ IHl]; cbn in *; auto. destruct Ht as [H1 H2]. f_equal; auto.
Qed.
Lemma tder_row {T} (F : FloatOps T) (O : OpSet T) D nf nc known var var' cst dvar dcst : (forall f, f < nf -> var f = var' f) -> forall t skip2, tree_ok D nf nc known t ->
  tder F O var cst dvar dcst skip2 t = tder F O var' cst dvar dcst skip2 t.
Proof.
  intros H. induction t as [f|i|op ts IH] using tree_ind'; intros skip2 Ht; cbn [tder tree_ok] in *; auto. destruct Ht as (_ & _ & Ht).
  rewrite (map_teval_row O D nf nc known var var' cst H ts Ht). f_equal. clear - IH Ht.
  induction IH as [|t ts Hc _ IHl]; cbn in *; auto. destruct Ht as [H1 H2]. f_equal; auto.
Qed.

Lemma combine_maps {A B D} (f : A -> B) (g : A -> D) l : combine (map f l) (map g l) = map (fun x => (f x, g x)) l.
Proof. induction l as [|x l IH]; cbn; auto. now rewrite IH. Qed.
Lemma as_map {A} (l : list A) d : l = map (fun i => nth i l d) (seq 0 (List.length l)).
Proof.
  apply nth_error_ext. intros i. destruct (Nat.lt_ge_cases i (List.length l)) as [Hi|Hi].
  - rewrite (nth_error_nth' l d Hi). symmetry. erewrite map_nth_error; [reflexivity|]. rewrite (nth_error_nth' _ 0) by (rewrite seq_length; auto). now rewrite seq_nth.
  - transitivity (@None A); [|symmetry]; apply nth_error_None; rewrite ?map_length, ?seq_length; auto.
Qed.
Lemma fold_sum {T A} (F : FloatOps T) (g : A -> T) (h : A -> T) l : forall a, fold_left (fun a q => fadd F a (fmul F (fst q) (snd q))) (combine (map g l) (map h l)) a
  = fold_left (fadd F) (map (fun x => fmul F (g x) (h x)) l) a.
Proof. induction l as [|x l IH]; intros a; cbn; auto. Qed.

(** The loss, its derivative in the predictions, and the slope, over rows [S] with predictions [v], targets [y] and weights [w]. *)
Section Rows.
Context {T : Type} (F : FloatOps T) (LO : LossOps T) (S : list nat) (v y : nat -> T) (w : option (nat -> T)).
Definition point_mean (p : pointloss T) : T :=
  match w with
  | None => fdiv F (fsum F (map (fun r => pl_loss p (v r) (y r)) S)) (lo_of_nat LO (List.length S))
  | Some w => let s := fsum F (map w S) in if feqb F s (fzero F) then fzero F else fdiv F (fsum F (map (fun r => fmul F (w r) (pl_loss p (v r) (y r))) S)) s
  end.
Definition point_slope (p : pointloss T) (r : nat) : T :=
  match w with
  | None => fmul F (recip F (lo_of_nat LO (List.length S))) (pl_dloss p (v r) (y r))
  | Some w => let s := fsum F (map w S) in if feqb F s (fzero F) then fzero F else fmul F (fmul F (w r) (recip F s)) (pl_dloss p (v r) (y r))
  end.
Definition rmse_slope (r : nat) : T :=
  let m := lo_sqrt LO (point_mean (squared_loss F LO)) in
  if feqb F m (fzero F) || negb (ffinite F m) then fzero F
  else match w with
       | None => fmul F (fdiv F (recip F (lo_of_nat LO (List.length S))) m) (fsub F (v r) (y r))
       | Some w => let s := fsum F (map w S) in if feqb F s (fzero F) then fzero F else fmul F (fmul F (fdiv F (recip F s) m) (w r)) (fsub F (v r) (y r))
       end.
Definition kind_loss (k : loss_kind T) : T :=
  match k with
  | LMse => point_mean (squared_loss F LO) | LMae => point_mean (abs_loss F LO) | LRmse => lo_sqrt LO (point_mean (squared_loss F LO))
  | LHuber d => point_mean (huber_loss F LO d) | LLogCosh => point_mean (log_cosh_loss F LO) | LLp p => point_mean (lp_loss F LO p)
  | LQuantile t => point_mean (quantile_loss F LO t) | LEps e => point_mean (eps_loss F LO e)
  end.
Definition kind_slope (k : loss_kind T) (r : nat) : T :=
  match k with
  | LMse => point_slope (squared_loss F LO) r | LMae => point_slope (abs_loss F LO) r | LRmse => rmse_slope r
  | LHuber d => point_slope (huber_loss F LO d) r | LLogCosh => point_slope (log_cosh_loss F LO) r | LLp p => point_slope (lp_loss F LO p) r
  | LQuantile t => point_slope (quantile_loss F LO t) r | LEps e => point_slope (eps_loss F LO e) r
  end.

Lemma fill_as_map {A} (x : A) n (l : list nat) : List.length l = n -> fill n x = map (fun _ => x) l.
Proof. intros <-. unfold fill. clear. induction l; cbn; auto. f_equal. auto. Qed.

Lemma mean_rows (p : pointloss T) : S <> [] -> mean_loss F LO p (map v S) (map y S) (option_map (fun w => map w S) w) = Ok (point_mean p).
Proof.
  intros Hs. unfold mean_loss, point_mean. rewrite !map_length, Nat.eqb_refl. cbn [assert_ bind]. destruct w as [w0|]; cbn [option_map].
  - rewrite !map_length, Nat.eqb_refl. cbn [assert_ bind]. cbv zeta. destruct (feqb F _ _); auto. rewrite zip_eq_ok by now rewrite !map_length. cbn [bind].
    rewrite combine_maps. rewrite zip_eq_ok by now rewrite !map_length. cbn [bind]. rewrite combine_maps, map_map. reflexivity.
  - destruct (map y S) as [|y0 ys] eqn:Ey; [destruct S; [contradiction|discriminate]|]. rewrite <- Ey. rewrite zip_eq_ok by now rewrite !map_length. cbn [bind]. rewrite combine_maps, map_map. reflexivity.
Qed.
Lemma dmean_rows (p : pointloss T) out : S <> [] -> List.length out = List.length S ->
  mean_dloss F LO p (map v S) (map y S) (option_map (fun w => map w S) w) out = Ok (map (point_slope p) S).
Proof.
  intros Hs Ho. unfold mean_dloss, point_slope. rewrite !map_length, Ho, Nat.eqb_refl. cbn [assert_ bind]. destruct w as [w0|]; cbn [option_map].
  - rewrite !map_length, Nat.eqb_refl. cbn [assert_ bind]. cbv zeta. destruct (feqb F _ _); [f_equal; now apply fill_as_map|]. rewrite zip_eq_ok by now rewrite !map_length. cbn [bind].
    rewrite combine_maps. rewrite zip_eq_ok by now rewrite !map_length. cbn [bind]. rewrite combine_maps, map_map. reflexivity.
  - destruct (map y S) as [|y0 ys] eqn:Ey; [destruct S; [contradiction|discriminate]|]. rewrite <- Ey. rewrite zip_eq_ok by now rewrite !map_length. cbn [bind]. rewrite combine_maps, map_map. reflexivity.
Qed.
Lemma loss_rows k : S <> [] -> lf_loss (make_loss F LO k) (map v S) (map y S) (option_map (fun w => map w S) w) = Ok (kind_loss k).
Proof. intros Hs. destruct k; cbn [make_loss mean_of lf_loss kind_loss rmse_loss]; rewrite mean_rows by auto; reflexivity. Qed.
Lemma dloss_rows k out : S <> [] -> List.length out = List.length S -> lf_dloss (make_loss F LO k) (map v S) (map y S) (option_map (fun w => map w S) w) out = Ok (map (kind_slope k) S).
Proof.
  intros Hs Ho. destruct k; cbn [make_loss mean_of lf_dloss kind_slope rmse_loss]; try (now apply dmean_rows).
  change (map (kind_slope LRmse) S) with (map rmse_slope S). rewrite mean_rows by auto. rewrite !map_length, Ho, Nat.eqb_refl. cbn [assert_ bind]. cbv zeta. unfold rmse_slope. cbv zeta. destruct (_ || _); [f_equal; now apply fill_as_map|].
  destruct w as [w0|]; cbn [option_map].
  - rewrite !map_length, Nat.eqb_refl. cbn [assert_ bind]. destruct (feqb F _ _); [f_equal; now apply fill_as_map|]. rewrite zip_eq_ok by now rewrite !map_length. cbn [bind].
    rewrite combine_maps. rewrite zip_eq_ok by now rewrite !map_length. cbn [bind]. rewrite combine_maps, map_map. reflexivity.
  - rewrite zip_eq_ok by now rewrite !map_length. cbn [bind]. rewrite combine_maps, map_map. reflexivity.
Qed.
End Rows.

(** Target and weight of a row, as values. *)
Definition y_at {T} (F : FloatOps T) (d : dataset T) (r : nat) : T := nth r (ds_y d) (fzero F).
Definition w_at {T} (F : FloatOps T) (d : dataset T) : option (nat -> T) := option_map (fun w r => nth r w (fzero F)) (ds_weights d).
Lemma data_rows {T} (F : FloatOps T) (d : dataset T) : dataset_ok d ->
  ds_y d = map (y_at F d) (seq 0 (ds_n_rows d)) /\ ds_weights d = option_map (fun w => map w (seq 0 (ds_n_rows d))) (w_at F d).
Proof.
  intros (_ & _ & _ & Hy & Hw). split; [rewrite <- Hy; apply as_map|]. unfold w_at. destruct (ds_weights d) as [w|]; auto. cbn [option_map]. f_equal.
  rewrite <- (Hw w eq_refl). apply as_map.
Qed.

(** The three quantities a search reads, for one of the library's losses. *)
Section View.
Context {T : Type} (C : eval_cfg T) (k : loss_kind T) (Hk : ec_loss C = make_loss (ec_F C) (ec_LO C) k) (d : dataset T) (Hd : dataset_ok d) (Hn : 1 <= ds_n_rows d) (e : expr T) (t : tree).
Local Notation F := (ec_F C).
Local Notation rows := (seq 0 (ds_n_rows d)).
Local Notation val := (value_at F (ec_O C) e (ds_x d) t).
Lemma rows_ne : rows <> [].
Proof. destruct (ds_n_rows d); [lia|discriminate]. Qed.
Lemma loss_view : lf_loss (ec_loss C) (predictions C d e t) (ds_y d) (ds_weights d) = Ok (kind_loss F (ec_LO C) rows val (y_at F d) (w_at F d) k).
Proof. destruct (data_rows F d Hd) as [Ey Ew]. rewrite Hk, Ey at 1. rewrite Ew. unfold predictions. apply loss_rows. apply rows_ne. Qed.
Lemma slope_view out dl ci : List.length out = ds_n_rows d -> lf_dloss (ec_loss C) (predictions C d e t) (ds_y d) (ds_weights d) out = Ok dl ->
  loss_slope C d e t dl ci = fsum F (map (fun r => fmul F (kind_slope F (ec_LO C) rows val (y_at F d) (w_at F d) k r) (grad_comp F (ec_O C) e (ds_x d) false t ci r)) rows).
Proof.
  intros Ho H. destruct (data_rows F d Hd) as [Ey Ew]. rewrite Hk, Ey in H. rewrite Ew in H. unfold predictions in H. rewrite dloss_rows in H; [|apply rows_ne|now rewrite seq_length].
  injection H as <-. unfold loss_slope. cbv zeta. rewrite fold_sum. reflexivity.
Qed.
End View.

(** ** Another order of the rows *)
Lemma fsum_perm {T} (F : FloatOps T) : (forall a b c, fadd F a (fadd F b c) = fadd F (fadd F a b) c) -> (forall a b, fadd F a b = fadd F b a) ->
  forall l l', Permutation l l' -> fsum F l = fsum F l'.
Proof.
  intros HA HC l l' P. unfold fsum. generalize (fzero F). induction P as [|x l l' _ IH|x y l|l l1 l2 _ IH1 _ IH2]; intros a; cbn; auto.
  - f_equal. rewrite <- !HA. f_equal. apply HC.
  - rewrite IH1. auto.
Qed.

Lemma perm_sum {T} (F : FloatOps T) n sigma (g g' : nat -> T) : (forall a b c, fadd F a (fadd F b c) = fadd F (fadd F a b) c) -> (forall a b, fadd F a b = fadd F b a) ->
  Permutation sigma (seq 0 n) -> (forall i j, nth_error sigma i = Some j -> g' i = g j) -> fsum F (map g (seq 0 n)) = fsum F (map g' (seq 0 n)).
Proof.
  intros HA HC P H. assert (Hl : List.length sigma = n) by (rewrite (Permutation_length P); apply seq_length).
  transitivity (fsum F (map g sigma)); [apply fsum_perm; auto; apply Permutation_map; symmetry; exact P|]. f_equal.
  apply nth_error_ext. intros i. rewrite !nth_error_map. destruct (nth_error sigma i) as [j|] eqn:Ei.
  - assert (i < n) by (rewrite <- Hl; apply nth_error_Some; congruence). rewrite (nth_error_nth' (seq 0 n) 0) by (rewrite seq_length; auto). rewrite seq_nth by auto. cbn. f_equal. symmetry. auto.
  - apply nth_error_None in Ei. cbn. symmetry. destruct (nth_error (seq 0 n) i) eqn:E2; auto. assert (i < List.length (seq 0 n)) by (apply nth_error_Some; congruence). rewrite seq_length in H0. lia.
Qed.

(** If addition is associative and commutative, the order of the rows does not matter, for any of the losses. *)
Theorem C73_row_order : forall (T W : Type) (S0 : search_cfg T W) d d' B k,
  live S0 d B -> data_ok d' -> reordered d d' ->
  let F := ec_F (eo_C (sc_E S0)) in
  (forall a b c, fadd F a (fadd F b c) = fadd F (fadd F a b) c) -> (forall a b, fadd F a b = fadd F b a) ->
  ec_loss (eo_C (sc_E S0)) = make_loss F (ec_LO (eo_C (sc_E S0))) k ->
  same_view (eo_C (sc_E S0)) (formulas S0 d B) d d'.
Proof.
  intros T W S0 d d' B k L Hd' (Hnf & Hrows & Hw & sigma & HP & Hs) F HA HC Hk. set (C := eo_C (sc_E S0)) in *.
  destruct (lv_data _ _ _ L) as (Hd & Hn & _). destruct Hd' as (Hd' & Hn' & _). pose proof Hd as (X1 & X2 & X3 & X4 & X5). pose proof Hd' as (Y1 & Y2 & Y3 & Y4 & Y5).
  assert (Hl : List.length sigma = ds_n_rows d) by (rewrite (Permutation_length HP); apply seq_length).
  assert (Hat : forall i j f, nth_error sigma i = Some j -> f < ds_n_features d -> mat_at F (ds_x d') i f = mat_at F (ds_x d) j f).
  { intros i j f Hi Hf. destruct (Hs i j Hi) as [Hfe _]. specialize (Hfe f Hf). unfold feature in Hfe. unfold mat_at. rewrite Y2, X2. rewrite <- !nth_default_eq. unfold nth_default. now rewrite Hfe. }
  assert (Hy : forall i j, nth_error sigma i = Some j -> y_at F d' i = y_at F d j).
  { intros i j Hi. destruct (Hs i j Hi) as (_ & Ht & _). unfold target in Ht. unfold y_at. rewrite <- !nth_default_eq. unfold nth_default. now rewrite Ht. }
  assert (Hwt : match w_at F d, w_at F d' with Some w, Some w' => forall i j, nth_error sigma i = Some j -> w' i = w j | None, None => True | _, _ => False end).
  { unfold w_at, weighted, weight in *. destruct (ds_weights d) as [w|] eqn:E1, (ds_weights d') as [w'|] eqn:E2; cbn; auto.
    - intros i j Hi. destruct (Hs i j Hi) as (_ & _ & Ht). unfold weight in Ht. rewrite E1, E2 in Ht. rewrite <- !nth_default_eq. unfold nth_default. now rewrite Ht.
    - apply (proj1 Hw); congruence.
    - apply (proj2 Hw); congruence. }
  assert (Htree : forall e t, formulas S0 d B e -> represents e t -> exists known, tree_ok (ec_D C) (ds_n_features d) (List.length (consts e)) known t).
  { intros e t (t0 & R0 & T0 & _) R. assert (t0 = t) as -> by (unfold represents in *; apply flatten_inj; congruence). eauto. }
  assert (Hval : forall e t i j, formulas S0 d B e -> represents e t -> nth_error sigma i = Some j ->
    value_at F (ec_O C) e (ds_x d') t i = value_at F (ec_O C) e (ds_x d) t j /\ finite_at F (ec_O C) e (ds_x d') t i = finite_at F (ec_O C) e (ds_x d) t j
    /\ forall ci, grad_comp F (ec_O C) e (ds_x d') false t ci i = grad_comp F (ec_O C) e (ds_x d) false t ci j).
  { intros e t i j He R Hi. destruct (Htree e t He R) as [known Tk]. unfold value_at, finite_at, grad_comp. split; [|split].
    - eapply teval_row; [|exact Tk]. eauto.
    - eapply tfinite_row; [|exact Tk]. eauto.
    - intros ci. eapply tder_row; [|exact Tk]. eauto. }
  assert (Hon : forall j, j < ds_n_rows d -> exists i, nth_error sigma i = Some j) by (intros j Hj; apply In_nth_error; rewrite HP; apply in_seq; lia).
  assert (Hin : forall i, i < ds_n_rows d -> exists j, nth_error sigma i = Some j /\ j < ds_n_rows d).
  { intros i Hi. destruct (nth_error sigma i) as [j|] eqn:E; [|apply nth_error_None in E; lia]. exists j. split; auto. apply nth_error_In in E. rewrite HP in E. apply in_seq in E. lia. }
  assert (Hpm : forall e t p, formulas S0 d B e -> represents e t ->
     point_mean F (ec_LO C) (seq 0 (ds_n_rows d)) (value_at F (ec_O C) e (ds_x d) t) (y_at F d) (w_at F d) p
     = point_mean F (ec_LO C) (seq 0 (ds_n_rows d')) (value_at F (ec_O C) e (ds_x d') t) (y_at F d') (w_at F d') p).
  { intros e t p He R. unfold point_mean. rewrite Hrows. cbv zeta. destruct (w_at F d) as [w|], (w_at F d') as [w'|]; try contradiction.
    - rewrite (perm_sum F (ds_n_rows d) sigma w w' HA HC HP Hwt). destruct (feqb F _ _); auto. f_equal. apply (perm_sum F _ sigma); auto.
      intros i j Hi. rewrite (Hwt i j Hi), (Hy i j Hi), (proj1 (Hval e t i j He R Hi)). reflexivity.
    - f_equal. apply (perm_sum F _ sigma); auto. intros i j Hi. rewrite (Hy i j Hi), (proj1 (Hval e t i j He R Hi)). reflexivity. }
  assert (Hps : forall e t p i j, formulas S0 d B e -> represents e t -> nth_error sigma i = Some j ->
     point_slope F (ec_LO C) (seq 0 (ds_n_rows d')) (value_at F (ec_O C) e (ds_x d') t) (y_at F d') (w_at F d') p i
     = point_slope F (ec_LO C) (seq 0 (ds_n_rows d)) (value_at F (ec_O C) e (ds_x d) t) (y_at F d) (w_at F d) p j).
  { intros e t p i j He R Hi. unfold point_slope. rewrite Hrows. cbv zeta. rewrite (Hy i j Hi), (proj1 (Hval e t i j He R Hi)). destruct (w_at F d) as [w|], (w_at F d') as [w'|]; try contradiction; auto.
    rewrite <- (perm_sum F (ds_n_rows d) sigma w w' HA HC HP Hwt), (Hwt i j Hi). reflexivity. }
  assert (Hks : forall e t i j, formulas S0 d B e -> represents e t -> nth_error sigma i = Some j ->
     kind_slope F (ec_LO C) (seq 0 (ds_n_rows d')) (value_at F (ec_O C) e (ds_x d') t) (y_at F d') (w_at F d') k i
     = kind_slope F (ec_LO C) (seq 0 (ds_n_rows d)) (value_at F (ec_O C) e (ds_x d) t) (y_at F d) (w_at F d) k j).
  { intros e t i j He R Hi. destruct k; cbn [kind_slope]; auto. unfold rmse_slope. cbv zeta. rewrite <- (Hpm e t _ He R), Hrows. destruct (_ || _); auto.
    rewrite (Hy i j Hi), (proj1 (Hval e t i j He R Hi)). destruct (w_at F d) as [w|], (w_at F d') as [w'|]; try contradiction; auto.
    rewrite <- (perm_sum F (ds_n_rows d) sigma w w' HA HC HP Hwt), (Hwt i j Hi). reflexivity. }
  split.
  - exact Hnf.
  - intros e t He R. unfold completes. fold F. split; intros [H1 H2]; split; auto.
    + intros i Hi. rewrite Hrows in Hi. destruct (Hin i Hi) as (j & Ej & Hj). rewrite (proj1 (proj2 (Hval e t i j He R Ej))). auto.
    + intros j Hj. destruct (Hon j Hj) as [i Ei]. rewrite <- (proj1 (proj2 (Hval e t i j He R Ei))). apply H1. rewrite Hrows, <- Hl. apply nth_error_Some. congruence.
  - intros e t He R _. rewrite (loss_view C k Hk d Hd Hn), (loss_view C k Hk d' Hd' Hn'). f_equal. fold F. destruct k; cbn [kind_loss]; auto. f_equal. auto.
  - intros e t He R _. fold F. apply bool_ext. rewrite !existsb_exists. unfold predictions. fold F. split; intros (x & Hx & Hfx); apply in_map_iff in Hx as (i & <- & Hi); apply in_seq in Hi.
    + destruct (Hon i ltac:(lia)) as [i' Ei]. exists (value_at F (ec_O C) e (ds_x d') t i'). split; [apply in_map_iff; exists i'; split; auto; apply in_seq|].
      * assert (i' < List.length sigma) by (apply nth_error_Some; congruence). lia.
      * rewrite (proj1 (Hval e t i' i He R Ei)). auto.
    + destruct (Hin i ltac:(lia)) as (j & Ej & Hj). exists (value_at F (ec_O C) e (ds_x d) t j). split; [apply in_map_iff; exists j; split; auto; apply in_seq; lia|].
      rewrite <- (proj1 (Hval e t i j He R Ej)). auto.
  - intros e t out out' dl dl' ci He R _ Ho Ho' E1 E2 _. rewrite (slope_view C k Hk d Hd Hn e t out dl ci Ho E1), (slope_view C k Hk d' Hd' Hn' e t out' dl' ci Ho' E2). fold F.
    rewrite (perm_sum F (ds_n_rows d) sigma _ (fun r => fmul F (kind_slope F (ec_LO C) (seq 0 (ds_n_rows d')) (value_at F (ec_O C) e (ds_x d') t) (y_at F d') (w_at F d') k r) (grad_comp F (ec_O C) e (ds_x d') false t ci r)) HA HC HP).
    + now rewrite Hrows at 1.
    + intros i j Hi. rewrite (Hks e t i j He R Hi). f_equal. apply (proj2 (proj2 (Hval e t i j He R Hi))).
Qed.

(** The stepwise engine and the parallel search on reordered data, put together. *)
Theorem C73_reordered_search : forall (T W : Type) (S0 : search_cfg T W) d d' B k threads,
  live S0 d B -> data_ok d' -> reordered d d' -> sc_batching S0 = false -> hash_apart S0 d B ->
  let F := ec_F (eo_C (sc_E S0)) in
  (forall a b c, fadd F a (fadd F b c) = fadd F (fadd F a b) c) -> (forall a b, fadd F a b = fadd F b a) ->
  ec_loss (eo_C (sc_E S0)) = make_loss F (ec_LO (eo_C (sc_E S0))) k ->
  exists bl st st' en en', baseline_for S0 d = Ok bl /\ baseline_for S0 d' = Ok bl
    /\ init_search S0 d bl = Ok st /\ init_search S0 d' bl = Ok st' /\ same_outcome st st'
    /\ (forall es c, csteps S0 d bl (n_workers S0 threads) (parallel_start S0 st) es c ->
        exists c', csteps S0 d' bl (n_workers S0 threads) (parallel_start S0 st') es c' /\ same_outcome (co_st c) (co_st c') /\ (finished c <-> finished c'))
    /\ engine_new S0 d = Ok en /\ engine_new S0 d' = Ok en'
    /\ (forall ns, agree (fun p q => same_outcome (en_st (fst p)) (en_st (fst q)) /\ snd p = snd q) (steps S0 en ns) (steps S0 en' ns))
    /\ (forall fuel, agree (fun p q => same_outcome (en_st p) (en_st q)) (run_loop S0 fuel en) (run_loop S0 fuel en')).
Proof.
  intros T W S0 d d' B k th L Hd' Hr Hb Hh F HA HC Hk. pose proof (C73_row_order T W S0 d d' B k L Hd' Hr HA HC Hk) as V.
  destruct (baseline_live S0 d B L) as [bl Eb]. destruct (C73_parallel T W S0 d d' B th bl L Hd' Hb Hh V) as (Ebl & st & st' & E1 & E2 & H1 & H2).
  destruct (C73_engine T W S0 d d' B L Hd' Hb Hh V) as (en & en' & E3 & E4 & _ & H3 & H4).
  exists bl, st, st', en, en'. rewrite <- Ebl. split; [exact Eb|]. split; [exact Eb|]. split; [exact E1|]. split; [exact E2|]. split; [exact H1|]. split; [exact H2|].
  split; [exact E3|]. split; [exact E4|]. split; [exact H3|exact H4].
Qed.

(** ** The premises are met *)
Lemma xadd_assoc a b c : xadd a (xadd b c) = xadd (xadd a b) c.
Proof.
  destruct a as [a|[]|], b as [b|[]|], c as [c|[]|]; cbn; auto. f_equal. destruct a as [a a'], b as [b b'], c as [c c']. unfold Qplus. cbn. f_equal; [|apply Pos.mul_assoc].
  rewrite !Pos2Z.inj_mul. ring.
Qed.
Lemma xadd_comm a b : xadd a b = xadd b a.
Proof. destruct a as [a|[]|], b as [b|[]|]; cbn; auto. f_equal. destruct a, b. unfold Qplus. cbn. f_equal; [ring|apply Pos.mul_comm]. Qed.

(** The data of the example search of C49 with its last row first. *)
Definition demo_reordered : dataset xq := mkData (mkMat [XF 3; XF 1; XF 2] 1 3) [XF 7; XF 2; XF 4] 1 3 (Some [XF 2; XF 1; XF 1]) (XF 0).

Example C73_case : live (live_search false 1) demo_data 9 /\ data_ok demo_reordered /\ reordered demo_data demo_reordered /\ sc_batching (live_search false 1) = false
  /\ hash_apart (live_search false 1) demo_data 9 /\ ec_loss (eo_C (sc_E (live_search false 1))) = make_loss xqops xq_loss_ops LMse
  /\ same_view (eo_C (sc_E (live_search false 1))) (formulas (live_search false 1) demo_data 9) demo_data demo_reordered.
Proof.
  assert (L : live (live_search false 1) demo_data 9) by (apply live_search_live; now left).
  assert (Hd : data_ok demo_reordered).
  { split; [|split; [cbn; lia|cbn; unfold u16_max; lia]]. split; [reflexivity|]. split; [reflexivity|]. split; [reflexivity|]. split; [reflexivity|]. intros w Hw. injection Hw as <-. reflexivity. }
  assert (Hr : reordered demo_data demo_reordered).
  { split; [reflexivity|]. split; [reflexivity|]. split; [unfold weighted; cbn; split; congruence|]. exists [2; 0; 1]. split.
    - apply perm_trans with [0; 2; 1]; [apply perm_swap|]. apply perm_skip. apply perm_swap.
    - intros [|[|[|i]]] j Hj; cbn in Hj; try (injection Hj as <-); [| | |destruct i; discriminate]; (split; [|split; reflexivity]; intros [|f] Hf; [reflexivity|cbn in Hf; lia]). }
  split; [exact L|]. split; [exact Hd|]. split; [exact Hr|]. split; [reflexivity|]. split; [intros ns _; apply exact_hash_told_apart|]. split; [reflexivity|].
  apply (C73_row_order xq xq (live_search false 1) demo_data demo_reordered 9 LMse L Hd Hr); [exact xadd_assoc|exact xadd_comm|reflexivity].
Qed.

(** In binary64, whose addition is not associative, it does: the mean absolute error of the formula x0 over residuals 2^53, 1, 1 depends on their order. *)
Definition order_cfg : eval_cfg SpecFloat.spec_float :=
  mkEvalCfg f64ops sf_loss_ops (rational_ops f64ops) exact_hash (u16_max + 1) 2 (mkSizeOpts 1 1 None [] 10 [] []) (make_loss f64ops sf_loss_ops LMae) (fzero f64ops) false.
Definition order_data (big_first : bool) : dataset SpecFloat.spec_float :=
  let z := fzero f64ops in let one := f64lit 1 0 in let big := f64lit 1 53 in
  mkData (mkMat (if big_first then [big; one; one] else [one; one; big]) 1 3) [z; z; z] 1 3 None z.
Theorem C73_order_refuted : exists e t l l', data_ok (order_data true) /\ data_ok (order_data false) /\ reordered (order_data true) (order_data false)
  /\ represents e t /\ completes order_cfg (order_data true) e t /\ completes order_cfg (order_data false) e t
  /\ lf_loss (ec_loss order_cfg) (predictions order_cfg (order_data true) e t) (ds_y (order_data true)) (ds_weights (order_data true)) = Ok l
  /\ lf_loss (ec_loss order_cfg) (predictions order_cfg (order_data false) e t) (ds_y (order_data false)) (ds_weights (order_data false)) = Ok l'
  /\ ffinite f64ops l = true /\ ffinite f64ops l' = true /\ fltb f64ops l l' = true.
Proof.
  assert (Hd : forall b, data_ok (order_data b)).
  { intros b. split; [|split; [cbn; lia|cbn; unfold u16_max; lia]]. destruct b; (split; [reflexivity|]; split; [reflexivity|]; split; [reflexivity|]; split; [reflexivity|]; intros w Hw; discriminate Hw). }
  assert (Hc : forall b, completes order_cfg (order_data b) (mkExpr [Var 0] [] []) (TVar 0)).
  { intros b. split; [intros r _; reflexivity|]. intros i Hi. discriminate Hi. }
  exists (mkExpr [Var 0] [] []), (TVar 0). eexists. eexists.
  split; [apply Hd|]. split; [apply Hd|]. split.
  { split; [reflexivity|]. split; [reflexivity|]. split; [unfold weighted; cbn; split; congruence|]. exists [2; 1; 0]. split.
    - apply perm_trans with [2; 0; 1]; [apply perm_skip, perm_swap|]. apply perm_trans with [0; 2; 1]; [apply perm_swap|]. apply perm_skip. apply perm_swap.
    - intros [|[|[|i]]] j Hj; cbn in Hj; try (injection Hj as <-); [| | |destruct i; discriminate]; (split; [|split; reflexivity]; intros [|f] Hf; [reflexivity|cbn in Hf; lia]). }
  split; [reflexivity|]. split; [apply Hc|]. split; [apply Hc|].
  split; [vm_compute; reflexivity|]. split; [vm_compute; reflexivity|]. split; [reflexivity|]. split; [reflexivity|]. vm_compute. reflexivity.
Qed.

(** A row of weight zero still counts: 1/x0 is not finite on the row x0 = 0 of weight zero, and is rejected; without that row its loss is 0. *)
Definition weightless (with_row : bool) : dataset xq :=
  if with_row then mkData (mkMat [XF 1; XF 0] 1 2) [XF 1; XF 0] 1 2 (Some [XF 1; XF 0]) (XF 0) else mkData (mkMat [XF 1] 1 1) [XF 1] 1 1 (Some [XF 1]) (XF 0).
Theorem C73_zero_weight_refuted : exists e t l, (forall b, data_ok (weightless b)) /\ weight (weightless true) 1 = Some (XF 0) /\ same_row (weightless true) 0 (weightless false) 0
  /\ represents e t /\ ~ completes live_cfg (weightless true) e t /\ completes live_cfg (weightless false) e t
  /\ lf_loss (ec_loss live_cfg) (predictions live_cfg (weightless false) e t) (ds_y (weightless false)) (ds_weights (weightless false)) = Ok l /\ (xval l == 0)%Q.
Proof.
  exists (mkExpr [Var 0; Op 1 17] [] []), (TOp 17 [TVar 0]). eexists.
  split. { intros b. split; [|split; [destruct b; cbn; lia|destruct b; cbn; unfold u16_max; lia]]. destruct b; (split; [reflexivity|]; split; [reflexivity|]; split; [reflexivity|]; split; [reflexivity|]; intros w Hw; injection Hw as <-; reflexivity). }
  split; [reflexivity|]. split. { split; [|split; reflexivity]. intros [|f] Hf; [reflexivity|cbn in Hf; lia]. }
  split; [reflexivity|]. split. { intros [H _]. specialize (H 1 ltac:(cbn; lia)). vm_compute in H. discriminate H. }
  split. { split; [|intros i Hi; discriminate Hi]. intros [|r] Hr; [reflexivity|cbn in Hr; lia]. }
  split; [vm_compute; reflexivity|reflexivity].
Qed.

Print Assumptions C73_parallel.
Print Assumptions C73_engine.
Print Assumptions C73_row_order.
Print Assumptions C73_reordered_search.
Print Assumptions C73_case.
Print Assumptions C73_order_refuted.
Print Assumptions C73_zero_weight_refuted.
