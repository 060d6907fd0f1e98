(** Property C49: a search does not panic. *)
From Coq Require Import QArith.
From Verif Require Import Base BaseLemmas Node Tree NodeProofs SpanProofs Compile CompileProofs Eval EvalProofs EvalTop Deriv DerivReach PropEval Utils UtilsProofs PropUtils Simplify PropSimplify
  Rng Registry PropRegistry Lit Mutation MutationProofs PropMutation Complexity ComplexitySpec ComplexityProofs PropComplexity Num Member SortProofs PropHof Selection SelectionProofs
  PropSelection Conditioning Dataset PropDataset Loss PropLoss Optim PropOptim PropOptimTotal ConstOpt PropConstOpt Evolution Frames PropEvolution Search PropSearch PropIds Ready Invariant
  PropWhole Instances.
Local Open Scope nat_scope.

(** ** Specification *)

(** A weighted draw over [ws] is possible: every weight is finite and not negative, and the total is finite and positive. *)
Definition drawable {W} (F : FloatOps W) (ws : list W) : Prop :=
  ws <> [] /\ Forall (fun w => ffinite F w = true /\ fltb F w (fzero F) = false) ws
  /\ let total := fold_left (fadd F) ws (fzero F) in ffinite F total = true /\ fleb F total (fzero F) = false.

(** What a caller guarantees. [lv_rows]: either no batching, or a batch has as many rows as the data. *)
Record live {T W} (S0 : search_cfg T W) (full : dataset T) (B : nat) : Prop := {
  lv_ok : search_ok S0 full B;
  lv_data : data_ok full;
  lv_rows : sc_batching S0 = false \/ Nat.max (sc_batch_size S0) 1 = ds_n_rows full;
  lv_loss : forall d, dataset_ok d -> loss_total (eo_C (sc_E S0)) d;
  lv_populations : 1 <= sc_populations S0;
  lv_size : 2 <= sc_population_size S0;
  lv_tournament : 1 <= tournament_selection_n (eo_sel (sc_E S0));
  lv_place : let F := ec_F (eo_C (sc_E S0)) in let p := tournament_selection_p (eo_sel (sc_E S0)) in
    fgeb F p (fone F) = true
    \/ (fleb F p (fzero F) = false /\ forall n, 2 <= n <= tournament_selection_n (eo_sel (sc_E S0)) -> drawable F (geometric F n p (fsub F (fone F) p)));
  lv_weights : forall (e : expr T) complexity cur, wf_expr (sc_E S0) (ds_n_features full) B e -> cur <= sel_maxsize (eo_sel (sc_E S0)) ->
    drawable (ec_F (eo_C (sc_E S0))) (map snd (choices (condition_mutation_weights (ec_F (eo_C (sc_E S0))) (eo_of_nat (sc_E S0)) (eo_weights (sc_E S0)) e complexity
      (mkCond (eo_simplify (sc_E S0)) (oc_enabled (eo_opt (sc_E S0))) (eo_opt_prob (sc_E S0))) cur (ds_n_features full))));
  lv_inf : forall w, fltb (oc_F (eo_opt (sc_E S0))) (finf (oc_F (eo_opt (sc_E S0)))) w = false;
  lv_irr : forall w, fltb (oc_F (eo_opt (sc_E S0))) w w = false;
  lv_baseline : ec_use_baseline (eo_C (sc_E S0)) = true -> 1 <= ec_D (eo_C (sc_E S0)) /\ ffinite (ec_F (eo_C (sc_E S0))) (fzero (ec_F (eo_C (sc_E S0)))) = true;
  lv_warmup : forall rem, get_cur_maxsize (sc_F32 S0) (sc_of32 S0) (sc_floor32 S0) (sc_warmup_by S0) (sel_maxsize (eo_sel (sc_E S0))) (total_cycles S0) rem <> Panic }.

(** ** Lemmas *)
Definition safe {A} (r : res A) : Prop := r <> Panic.
Lemma safe_bind {A B} (r : res A) (k : A -> res B) : safe r -> (forall v, r = Ok v -> safe (k v)) -> safe (bind r k).
Proof. unfold safe. destruct r as [v| |]; cbn; auto; congruence. Qed.
Lemma safe_ok {A} (r : res A) v : r = Ok v -> safe r.
Proof. unfold safe. congruence. Qed.
Lemma safe_ex {A} (r : res A) : (exists v, r = Ok v) -> safe r.
Proof. intros [v H]. eapply safe_ok; eauto. Qed.
Lemma safe_if {A} (b : bool) (x y : res A) : safe x -> safe y -> safe (if b then x else y).
Proof. destruct b; auto. Qed.
Lemma safe_mapM {A B} (f : A -> res B) l : (forall x, In x l -> safe (f x)) -> safe (mapM f l).
Proof.
  induction l as [|x l IH]; intros H; cbn [mapM]; [discriminate|]. apply safe_bind; [apply H; left; auto|]. intros y _.
  apply safe_bind; [apply IH; intros; apply H; right; auto|]. discriminate.
Qed.

Lemma sum_weights_ok {W} (F : FloatOps W) ws : forall t, Forall (fun w => ffinite F w = true /\ fltb F w (fzero F) = false) ws ->
  sum_weights F ws t = Ok (fold_left (fadd F) ws t).
Proof. induction ws as [|w ws IH]; intros t H; cbn; auto. inversion H as [|? ? [H1 H2] H3]; subst. rewrite H1, H2. cbn. auto. Qed.
Lemma drawable_ok {W} (F : FloatOps W) (r : rng W) ws : drawable F ws -> exists i r', weighted_index F r ws = Ok (i, r').
Proof.
  intros (Hn & Hf & Ht & Hp). unfold weighted_index. destruct ws as [|w ws]; [contradiction|]. rewrite sum_weights_ok by auto. cbn [bind].
  rewrite Ht, Hp. cbn [negb orb]. destruct (rng_real r). eauto.
Qed.

Section Live.
Context {T W : Type} (S0 : search_cfg T W) (full : dataset T) (bl : option T) (B : nat) (L : live S0 full B).
Local Notation E := (sc_E S0).
Local Notation C := (eo_C (sc_E S0)).
Local Notation F := (ec_F (eo_C (sc_E S0))).
Local Notation D := (ec_D (eo_C (sc_E S0))).
Local Notation maxsize := (sel_maxsize (eo_sel (sc_E S0))).
Local Notation nf := (ds_n_features full).
Local Notation known := (reg_known (eo_reg (sc_E S0))).
Local Notation snd_ := (sound E nf B bl).
Local Notation wf := (wf_expr E nf B).
Local Notation HS := (lv_ok _ _ _ L).

(** A dataset of the search: the data, or a batch of as many rows. *)
Definition usable (d : dataset T) : Prop := dataset_ok d /\ ds_n_rows d = ds_n_rows full /\ ds_n_features d = nf.

Lemma evo0 cur : cur <= maxsize -> evo_ok E nf B cur.
Proof. apply evo_at. exact HS. Qed.

Lemma compile_ok e : wf e -> exists p, compile_plan (ec_hash C) D (nodes e) nf (List.length (consts e)) = Ok p.
Proof.
  intros (t & Hr & Ht & Hn & Hc). destruct (lv_data _ _ _ L) as (_ & _ & Hnf). pose proof (ok_small _ _ _ _ (evo0 0 ltac:(lia))) as Hs.
  pose proof (flatten_ops t) as Ho. unfold represents in Hr. rewrite <- Hr in Ho.
  destruct (C05_plan_sound (ec_hash C) D (nodes e) nf (List.length (consts e)) known t Hr Ht Hnf) as (p & _ & Hp & _); [lia|lia|]. eauto.
Qed.
Lemma from_expr_ok id p b e : wf e -> exists m, from_expr C id p b e nf = Ok m.
Proof. intros Hw. destruct (compile_ok e Hw) as [q Hq]. unfold from_expr. rewrite Hq. cbn. eauto. Qed.

Lemma good_tree d m : usable d -> good E nf B m -> exists t, represents (m_expr m) t /\ ok_tree (ec_O C) D (m_expr m) (ds_x d) t /\ fits_u16 (m_expr m) (ds_x d) t
  /\ tsize t <= ec_umax C /\ expr_ok D nf known (m_expr m) /\ plan_fresh C (ds_n_features d) m.
Proof.
  intros (Hd & Hrw & Hfe) [(t & Hr & Ht & Hn & Hc) Hp]. destruct (lv_data _ _ _ L) as (_ & _ & Hnf). pose proof (evo0 0 ltac:(lia)) as He0.
  pose proof (ok_small _ _ _ _ He0) as Hs. pose proof (ok_widths _ _ _ _ He0) as Wd. pose proof (w_umax _ _ _ Wd) as Hu. pose proof Hd as (D1 & _).
  exists t. split; auto. pose proof (flatten_ops t) as Hops. assert (Ex : expr_ok D nf known (m_expr m)) by (exists t; auto).
  unfold represents in Hr. rewrite <- Hr in Hops. split; [|split; [|split; [|split]]]; auto.
  - split; auto. rewrite D1, Hfe. eapply tree_ok_ops; [exact Ht|]. intros a op Ha Hi. eapply reg_known_known; [apply He0|auto|]. eapply tree_ok_known; eauto.
  - split; [rewrite D1, Hfe; auto|split; lia].
  - rewrite <- flatten_length, <- Hr. lia.
  - rewrite Hfe. exact Hp.
Qed.

Lemma evaluate_ok m d ev : usable d -> good E nf B m -> ready (ds_n_rows full) ev -> exists m' ev' ok, evaluate C m d bl ev = Ok (m', ev', ok).
Proof.
  intros Hd Hg Hr. destruct (good_tree d m Hd Hg) as (t & R & Hok & Hf & Hsz & Hex & Hp). destruct (lv_data _ _ _ L) as (_ & Hrows & _).
  destruct Hd as (Hd & Hrw & Hfe).
  destruct (evaluate_spec C m d bl ev t nf known Hd Hok Hf ltac:(lia) Hp) as (ev2 & _ & [[_ Ev]|[_ Ev]]); auto.
  - unfold ev_ready. rewrite Hrw. exact Hr.
  - exact (ok_widths _ _ _ _ (evo0 0 ltac:(lia))).
  - eauto.
  - destruct (proj1 (lv_loss _ _ _ L d Hd) (predictions C d (m_expr m) t)) as [l El]; [unfold predictions; now rewrite map_length, seq_length|].
    rewrite El in Ev. destruct (ffinite F l); eauto.
Qed.

(** The formulas of the search. *)
Definition seen (ns : list pnode) : Prop := exists e, wf e /\ nodes e = ns.
Lemma seen_sane ns : seen ns -> sane (ec_O C) ns.
Proof.
  intros (e & (t & Hr & Ht & Hn & _) & <-). pose proof (evo0 0 ltac:(lia)) as He0. pose proof (ok_small _ _ _ _ He0) as Hs. pose proof (flatten_ops t) as Hops.
  exists t. split; [exact Hr|]. unfold represents in Hr. rewrite <- Hr in Hops. split; [|lia].
  intros a op Hi. rewrite Hr in Hi. refine (tree_ok_known D nf (List.length (consts e)) (oknown (ec_O C)) t a op _ Hi). eapply tree_ok_ops; [exact Ht|].
  intros a0 op0 Ha0 Hi0. eapply reg_known_known; [apply He0|auto|]. eapply tree_ok_known; eauto.
Qed.
Lemma opt_ready_of m d ev gc : usable d -> good E nf B m -> ready (ds_n_rows full) ev -> grad_reach F (ec_O C) (ec_hash C) D seen gc -> d_rows gc = ds_n_rows d ->
  exists t, opt_safe C seen d m ev gc t.
Proof.
  intros Hd Hg Hr Hgc Hrw. destruct (good_tree d m Hd Hg) as (t & R & Hok & Hf & Hsz & Hex & Hp). destruct (lv_data _ _ _ L) as (_ & Hrows & _).
  destruct Hd as (Hd & Hrw' & Hfe). exists t. split; auto.
  - lia.
  - unfold ev_ready. rewrite Hrw'. exact Hr.
  - exists (m_expr m). split; auto. apply Hg.
  - exact (ok_widths _ _ _ _ (evo0 0 ltac:(lia))).
  - apply (lv_loss _ _ _ L d Hd).
Qed.
Lemma optimize_ok (g : rng T) m d ev gc nb : usable d -> good E nf B m -> ready (ds_n_rows full) ev -> grad_reach F (ec_O C) (ec_hash C) D seen gc -> d_rows gc = ds_n_rows d ->
  exists g' m' ev' gc' nb' imp k, optimize_constants C (eo_opt E) g m d bl ev gc nb = Ok (g', m', ev', gc', nb', imp, k)
    /\ grad_reach F (ec_O C) (ec_hash C) D seen gc' /\ d_rows gc' = ds_n_rows d.
Proof.
  intros Hd Hg Hr Hgc Hrw. destruct (opt_ready_of m d ev gc Hd Hg Hr Hgc Hrw) as [t Ht].
  destruct (C32_never_panics T T C (eo_opt E) seen g m d bl ev gc nb t Ht seen_sane (lv_inf _ _ _ L) (lv_irr _ _ _ L)) as (g' & m' & ev' & gc' & nb' & imp & k & Eo & Ho).
  exists g', m', ev', gc', nb', imp, k. split; auto. split; apply Ho.
Qed.

Lemma check_ok e cur : expr_ok D nf known e -> cur <= maxsize -> exists b, check E e cur = Ok b.
Proof.
  intros (t & Hr & Ht) Hc. pose proof (evo0 cur Hc) as He. pose proof (ok_widths _ _ _ _ He) as Wd. pose proof (w_umax _ _ _ Wd). pose proof (ok_small _ _ _ _ He). pose proof (ok_cur _ _ _ _ He).
  pose proof (sk_one _ _ _ HS).
  destruct (C23_check_constraints_exact T (ec_umax C) D nf known (eo_stale E) (ec_size C) cur e t Wd) as (b & Eb & _); auto; [lia|]. unfold check. eauto.
Qed.

(** *** The mutations *)
Lemma wraps_size (s s' : xtree T) nD : wraps (eo_reg E) s s' -> x_ok nD nf known s' -> xsize s' <= xsize s + nD.
Proof.
  intros (op & l & r & -> & Hl & _) Hx. cbn [x_ok xsize] in *. destruct Hx as (Ha & _). rewrite map_app, sum_list_app. cbn [map sum_list].
  assert (G : forall l : list (xtree T), Forall xleaf l -> sum_list (map xsize l) = List.length l).
  { induction 1 as [|x l0 Hx _ IH]; cbn [map sum_list List.length]; auto. rewrite IH. destruct x; cbn in *; try contradiction; auto. }
  apply Forall_app in Hl as [H1 H2]. rewrite (G l), (G r) by auto. rewrite app_length in Ha. cbn [List.length] in Ha. lia.
Qed.

Lemma one_change_size (R : xtree T -> xtree T -> Prop) k x x' : (forall s s', R s s' -> x_ok D nf known s' -> xsize s' <= xsize s + k) ->
  one_change R x x' -> x_ok D nf known x' -> xsize x' <= xsize x + k.
Proof.
  intros Hk (K & s & s' & -> & -> & Hr) Hx. apply x_ok_plug in Hx as [Hs _]. specialize (Hk _ _ Hr Hs). pose proof (xsize_plug K s s'). lia.
Qed.
Lemma grows_size (s s' : xtree T) : grows (eo_reg E) s s' -> x_ok D nf known s' -> xsize s' <= xsize s + D.
Proof.
  intros (Hl & op & cs & -> & Hcs & _) Hx. pose proof (xsize_pos s) as Hp. cbn [x_ok xsize] in *. destruct Hx as (Ha & _).
  assert (G : sum_list (map xsize cs) = List.length cs).
  { clear -Hcs. induction Hcs as [|x l0 Hx _ IH]; cbn [map sum_list List.length]; auto. rewrite IH. destruct x; cbn in *; try contradiction; auto. }
  lia.
Qed.

(** The expression a mutation leaves can be compressed and checked. *)
Definition fit_expr (e : expr T) : Prop := expr_ok D nf known e /\ exists r, compress_constants e = Ok r.
Lemma fit_of e : expr_ok D nf known e -> List.length (consts e) <= u16_max \/ List.length (nodes e) <= u16_max -> fit_expr e.
Proof.
  intros He Hl. split; auto. apply C10_compress_total_iff. pose proof (proj1 (expr_ok_denotes F D nf known e) He) as (x & (t & _ & Hi & _) & _). split.
  - exact Hi.
  - destruct Hl as [Hl|Hl]; [|pose proof (first_uses_le (nodes e)); lia]. etransitivity; [|exact Hl]. apply first_uses_bound. exact Hi.
Qed.

Lemma apply_ok c g ev m d temp cur : cur <= maxsize -> usable d -> good E nf B m -> ready (ds_n_rows full) ev ->
  exists o g' ev', apply E c g ev m (m_expr m) d bl temp cur = Ok (o, g', ev') /\ fit_expr (fst (fst (fst o))).
Proof.
  intros Hcur Hd Hg Hr. pose proof Hg as [Hwf Hp]. pose proof (evo0 cur Hcur) as He0.
  destruct (wf_denotes E nf B _ Hwf) as (x & Hde & Hx). pose proof (reg_known_setting _ _ _ _ (ok_setting _ _ _ _ He0)) as Hs. pose proof Hs as (Hreg & Hnf' & HD).
  pose proof (ok_small _ _ _ _ He0) as Hsm. pose proof Hwf as (t & Hrep & Ht & Hn & Hc). pose proof (denotes_size _ _ _ Hde) as Hxs. destruct Hd as (Hd & Hrw & Hfe).
  assert (Hin : forall r P N, mutates F D nf known r (m_expr m) P N ->
    (forall e' x', denotes F e' x' -> x_ok D nf known x' -> P e' x' -> List.length (consts e') <= u16_max \/ List.length (nodes e') <= u16_max) ->
    exists o g' ev', in_place ev r = Ok (o, g', ev') /\ fit_expr (fst (fst (fst o)))).
  { intros r P N (b & e' & g' & x' & -> & Hd' & Hx' & _ & Hb) HP. unfold in_place. cbn [bind]. do 3 eexists. split; [reflexivity|]. cbn [fst].
    apply fit_of; [apply (expr_ok_denotes F); eauto|]. destruct b; [eauto|]. destruct Hb as [-> _]. left. lia. }
  unfold apply. rewrite Hfe. destruct c.
  - eapply Hin; [eapply C19_mutate_constant; eauto|]. cbn. intros e' x' _ _ (E1 & _). right. rewrite E1. lia.
  - eapply Hin; [eapply C19_mutate_operator; eauto|]. cbn. intros e' x' _ _ (_ & E1). left. rewrite E1. lia.
  - eapply Hin; [eapply C19_mutate_feature; eauto; apply Hnf'|]. cbn. intros e' x' _ _ (_ & E1). left. rewrite E1. lia.
  - eapply Hin; [eapply C21_swap; eauto|]. cbn. intros e' x' _ _ (_ & _ & E1). left. rewrite E1. lia.
  - eapply Hin; [eapply C21_rotate; eauto|]. cbn. intros e' x' _ _ (_ & _ & E1). left. rewrite E1. lia.
  - eapply Hin; [eapply C19_add; eauto; lia|]. cbn. intros e' x' Hd' Hx' (Hch & Hcs). left. unfold consts_of_size in Hcs.
    assert (xsize x' <= xsize x + D); [|lia]. destruct Hch as [Hch|Hch]; [eapply one_change_size; eauto; apply grows_size|eapply wraps_size; eauto].
  - eapply Hin; [eapply C19_insert; eauto; lia|]. cbn. intros e' x' Hd' Hx' (Hch & Hcs). left. unfold consts_of_size in Hcs.
    assert (xsize x' <= xsize x + D); [|lia]. eapply one_change_size; eauto. intros s s' H1 H2. eapply wraps_size; eauto.
  - eapply Hin; [eapply C19_delete; eauto; lia|]. cbn. intros e' x' Hd' Hx' (Hch & Hcs). left. unfold consts_of_size in Hcs.
    assert (xsize x' <= xsize x + 0); [|lia]. eapply one_change_size; eauto. cbn. intros s s' (op & l & r & ->) _. cbn [xsize]. rewrite map_app, sum_list_app. cbn [map sum_list]. lia.
  - destruct (C15_simplify_well_formed T F (ec_O C) D nf (eo_ccfg E) ev_opts (m_expr m) t Hrep) as (e2 & ch2 & t2 & E2 & R2 & T2 & Hn2 & Ho & _).
    { eapply tree_ok_ops; [exact Ht|]. intros a op Ha Hi. eapply reg_known_known; [apply He0|auto|]. eapply tree_ok_known; eauto. }
    { unfold represents in Hrep. rewrite <- flatten_length, <- Hrep. lia. }
    rewrite E2. cbn [bind]. do 3 eexists. split; [reflexivity|]. cbn [fst]. apply fit_of; [|right; lia].
    exists t2. split; auto. eapply tree_ok_ops; [exact T2|]. intros a op Ha Hi. unfold represents in R2. rewrite <- R2 in Hi. apply Ho in Hi. rewrite Hrep in Hi. eapply tree_ok_known; eauto.
  - set (ms := Nat.min (Nat.max cur 1) (Nat.max maxsize 1)). assert (Hms : 1 <= ms <= Nat.max cur 1) by (unfold ms; lia).
    destruct (usize_range_inclusive_ok g 1 ms) as (k & g3 & Ek & Hk); [lia|]. cbv zeta. rewrite Ek. cbn [bind].
    pose proof (ok_cur _ _ _ _ He0). pose proof (sk_one _ _ _ HS).
    destruct (C18_random_expr T F D nf known (eo_reg E) k g3 Hs) as (e2 & g4 & x2 & E2 & D2 & X2 & Z2 & Z3 & _); [lia|].
    rewrite E2. cbn [bind]. do 3 eexists. split; [reflexivity|]. cbn [fst]. apply fit_of; [apply (expr_ok_denotes F); eauto|]. left. lia.
  - do 3 eexists. split; [reflexivity|]. cbn [fst]. apply fit_of; [exists t; auto|]. left. lia.
  - destruct (from_expr_ok 0 None 0 (m_expr m) Hwf) as (tmp & Etmp). rewrite Etmp. cbn [bind]. cbv zeta.
    set (m1 := mkMember 0 None 0 (m_expr m) (m_plan m) (m_complexity m) (m_loss m) (m_cost m)).
    destruct (optimize_ok g m1 d ev (dctx_new F (ds_n_rows d)) 0) as (g' & m' & ev' & gc' & nb' & imp & k & Eo & _);
      [split; auto|exact Hg|exact Hr|constructor|reflexivity|].
    rewrite Eo. cbn [bind]. do 3 eexists. split; [reflexivity|]. cbn [fst]. apply optimize_frame in Eo as (_ & _ & _ & En & _ & Ec & _). cbn [m_expr] in *.
    apply fit_of; [exists t; unfold represents; rewrite En, Ec; auto|]. right. rewrite En. cbn. lia.
Qed.

Lemma attempts_ok c m d temp cur : cur <= maxsize -> usable d -> good E nf B m -> forall n g ev evals, ready (ds_n_rows full) ev ->
  exists o k g' ev', attempts E n c g ev m d bl temp cur evals = Ok (o, k, g', ev').
Proof.
  intros Hcur Hd Hg. induction n as [|n IH]; intros g ev evals Hr; cbn [attempts]; [eauto|].
  destruct (apply_ok c g ev m d temp cur Hcur Hd Hg Hr) as ([[[e mu] k] imm] & g1 & ev1 & Ea & Hf). rewrite Ea. cbn [bind fst] in *.
  pose proof (apply_ready E _ _ _ _ _ _ _ _ _ _ _ _ _ Ea Hr) as Hr1. destruct mu; cbn [negb]; [|apply IH; auto].
  destruct Hf as [He [[e' ch] Hc]]. rewrite Hc. cbn [bind]. destruct (compress_wf E nf _ _ _ He Hc) as (t' & R' & T' & _).
  destruct (check_ok e' cur) as [b Eb]; [exists t'; auto|auto|]. rewrite Eb. cbn [bind]. destruct b; [eauto|apply IH; auto].
Qed.

Lemma copy_parent_ok id b m : wf (m_expr m) -> exists m', copy_parent E id b m nf = Ok m'.
Proof. intros Hw. unfold copy_parent. destruct (from_expr_ok id (Some (m_id m)) b _ Hw) as [m1 ->]. cbn. eauto. Qed.
Lemma acceptance_ok st temp a b c e : exists v, acceptance E st temp a b c e = Ok v.
Proof.
  assert (G : forall size, exists v, size_freq E st size = Ok v).
  { intros size. unfold size_freq. destruct ((0 <? size) && _); [|eauto]. unfold freq. destruct (Nat.eqb_spec size 0); cbn [orb]; [eauto|].
    destruct (Nat.ltb_spec (List.length (st_norm st)) size); [eauto|]. unfold index. destruct (nth_error (st_norm st) (size - 1)) eqn:En; [cbn; eauto|].
    apply nth_error_None in En. lia. }
  unfold acceptance. destruct (eo_use_frequency E); [|eauto]. destruct (G c) as [v ->]. destruct (G e) as [w ->]. cbn. eauto.
Qed.

Lemma next_generation_ok s m d temp cur st : cur <= maxsize -> usable d -> good E nf B m -> ready (ds_n_rows full) (es_ev s) ->
  exists baby acc k s', next_generation E s m d bl temp cur st = Ok (baby, acc, k, s').
Proof.
  intros Hcur Hd Hg Hr. pose proof Hg as [Hw Hp]. pose proof Hd as (Hd1 & Hrw & Hfe). unfold next_generation. cbv zeta. rewrite Hfe.
  unfold sample_mutation. destruct (drawable_ok F (es_rng s) _ (lv_weights _ _ _ L (m_expr m) (m_complexity m) cur Hw Hcur)) as (i & g & Ei). rewrite Ei. cbn [bind].
  destruct (C29_in_range _ _ _ _ _ Ei) as (w & Hi & _). assert (Hi' : nth_error (map snd (choices (condition_mutation_weights F (eo_of_nat E) (eo_weights E) (m_expr m) (m_complexity m)
    (mkCond (eo_simplify E) (oc_enabled (eo_opt E)) (eo_opt_prob E)) cur nf))) i <> None) by congruence. apply nth_error_Some in Hi'. rewrite map_length in Hi'. unfold index at 1.
  destruct (nth_error (choices _) i) as [c|] eqn:En; [|apply nth_error_None in En; lia]. cbn [expect bind].
  destruct (attempts_ok (fst c) m d temp cur Hcur Hd Hg 10 g (es_ev s) 0 Hr) as (found & evals & g1 & ev1 & Ea). rewrite Ea. cbn [bind].
  pose proof (attempts_ready E _ _ _ _ _ _ _ _ _ _ _ _ _ _ _ Ea Hr) as Hr1.
  destruct (copy_parent_ok (es_id s) (es_birth s) m Hw) as (rej & Erej).
  destruct found as [[tree imm]|]; [|rewrite Erej; cbn; eauto 6].
  apply (attempts_spec E nf B cur bl (evo0 cur Hcur)) in Ea as [Hwt _]; auto.
  destruct (from_expr_ok (es_id s) (Some (m_id m)) (es_birth s) tree Hwt) as (baby & Eb). pose proof (from_expr_frame _ _ _ _ _ _ _ Eb) as (_ & _ & _ & I4 & I5).
  destruct imm; rewrite Eb; cbn [bind].
  - unfold rebuild_plan. rewrite I4. destruct (compile_ok tree Hwt) as (p & ->). cbn [bind m_expr]. rewrite ?I4.
    pose proof (evo0 cur Hcur) as He0. pose proof (ok_widths _ _ _ _ He0) as Wd. pose proof (w_umax _ _ _ Wd). pose proof (ok_small _ _ _ _ He0).
    destruct (expr_of_wf E nf B _ Hwt) as [Ho Hn].
    rewrite (C22_complexity_is_node_cost_sum T (ec_umax C) D nf known (ec_size C) tree Wd Ho) by lia. cbn. eauto 6.
  - assert (Hgb : good E nf B baby) by (split; [rewrite I4; auto|unfold plan_fresh; rewrite I4; exact I5]).
    destruct (evaluate_ok baby d ev1 Hd Hgb Hr1) as (m' & ev' & ok & Ev). rewrite Ev. cbn [bind].
    destruct (_ || _); [rewrite Erej; cbn; eauto 6|]. 
    match goal with |- context [acceptance ?a ?b ?c ?d ?e ?f ?g] => destruct (acceptance_ok b c d e f g) as (pr & ->) end. cbn [bind].
    destruct (rng_real g1) as [u g2]. destruct (fltb F pr u); [rewrite Erej; cbn; eauto 6|eauto 6].
Qed.

Lemma crossover_ok m1 m2 d cur : cur <= maxsize -> usable d -> good E nf B m1 -> good E nf B m2 -> forall n s, ready (ds_n_rows full) (es_ev s) ->
  exists b1 b2 acc k s', crossover_loop E n s m1 m2 d bl cur = Ok (b1, b2, acc, k, s').
Proof.
  intros Hcur Hd Hg1 Hg2. pose proof Hg1 as [Hw1 _]. pose proof Hg2 as [Hw2 _]. pose proof (evo0 cur Hcur) as He0. pose proof (ok_small _ _ _ _ He0) as Hsm. pose proof (ok_cur _ _ _ _ He0).
  destruct (wf_denotes E nf B _ Hw1) as (x1 & D1 & X1). destruct (wf_denotes E nf B _ Hw2) as (x2 & D2 & X2). pose proof Hd as (Hd1 & Hrw & Hfe).
  pose proof Hw1 as (t1 & R1 & T1 & N1 & C1). pose proof Hw2 as (t2 & R2 & T2 & N2 & C2).
  induction n as [|n IH]; intros s Hr; cbn [crossover_loop]; [eauto 6|].
  destruct (C20_crossover T F D nf known (es_rng s) (m_expr m1) (m_expr m2) x1 x2 D1 D2 X1 X2 ltac:(lia))
    as (a' & b' & g' & Ka & sa & Kb & sb & Ex & _ & _ & Da & Db & Xa & Xb & Hsum & _ & _ & Ca & Cb).
  rewrite Ex. cbn [bind].
  assert (Ha : expr_ok D nf known a') by (apply (expr_ok_denotes F); eauto). assert (Hb : expr_ok D nf known b') by (apply (expr_ok_denotes F); eauto).
  destruct (check_ok a' cur Ha Hcur) as [k1 E1]. rewrite E1. cbn [bind]. destruct (check_ok b' cur Hb Hcur) as [k2 E2].
  destruct k1; cbn [bind]; [|apply IH; auto]. rewrite E2. cbn [bind]. destruct k2; [|apply IH; auto]. cbv zeta. rewrite Hfe.
  assert (Wa : wf a' /\ wf b').
  { destruct Ha as (ta & Ra & Ta). destruct Hb as (tb & Rb & Tb).
    pose proof (feasible_nodes E nf B cur He0 a' ta Ra (proj1 (check_spec E nf B cur He0 a' ta true Ra Ta E1) eq_refl)).
    pose proof (feasible_nodes E nf B cur He0 b' tb Rb (proj1 (check_spec E nf B cur He0 b' tb true Rb Tb E2) eq_refl)).
    split; [exists ta|exists tb]; repeat split; auto; lia. }
  destruct Wa as [Wa Wb].
  destruct (from_expr_ok (es_id s) (Some (m_id m1)) (es_birth s) a' Wa) as (y1 & Y1). destruct (from_expr_ok (es_id s + 1) (Some (m_id m2)) (es_birth s + 1) b' Wb) as (y2 & Y2).
  rewrite Y1. cbn [bind]. rewrite Y2. cbn [bind]. apply from_expr_frame in Y1 as (_ & _ & _ & I4 & I5). apply from_expr_frame in Y2 as (_ & _ & _ & J4 & J5).
  destruct (evaluate_ok y1 d (es_ev s) Hd) as (z1 & v1 & o1 & Z1); auto; [split; [rewrite I4; auto|unfold plan_fresh; rewrite I4; exact I5]|]. rewrite Z1. cbn [bind].
  pose proof (evaluate_ready C _ _ _ _ _ _ _ _ Z1 Hr) as Hr1.
  destruct (evaluate_ok y2 d v1 Hd) as (z2 & v2 & o2 & Z2); auto; [split; [rewrite J4; auto|unfold plan_fresh; rewrite J4; exact J5]|]. rewrite Z2. cbn [bind]. eauto 6.
Qed.

(** *** Selection *)
Lemma place_ok (r : rng T) n : n <= tournament_selection_n (eo_sel E) -> exists k r', sample_tournament_place F r n (tournament_selection_p (eo_sel E)) = Ok (k, r').
Proof.
  intros Hn. unfold sample_tournament_place. destruct (Nat.leb_spec n 1); cbn [orb]; [do 2 eexists; reflexivity|]. pose proof (lv_place _ _ _ L) as Hl. cbv zeta in Hl.
  destruct (fgeb F (tournament_selection_p (eo_sel E)) (fone F)); [do 2 eexists; reflexivity|]. destruct Hl as [?|[Hp Hd]]; [discriminate|]. rewrite Hp. cbv zeta.
  destruct (fleb F (fsub F (fone F) (tournament_selection_p (eo_sel E))) (fzero F)); [do 2 eexists; reflexivity|].
  destruct (drawable_ok F r _ (Hd n ltac:(lia))) as (k & r' & ->). cbn [bind]. do 2 eexists; reflexivity.
Qed.
Lemma tournament_safe (g : rng T) pop st : pop <> [] -> maxsize <= List.length (st_norm st) -> safe (tournament E g pop st).
Proof.
  intros Hne Hst. unfold tournament, best_of_sample. set (n := Nat.min _ _). assert (Hlen : 0 < List.length pop) by (destruct pop; [contradiction|cbn; lia]).
  pose proof (lv_tournament _ _ _ L) as Ht.
  destruct (C28_sample (eo_fuel E) g (List.length pop) n) as [Hnp Hsp]. apply safe_bind; [exact Hnp|]. intros [s r1] Es. destruct (Hsp s r1 Es) as (_ & Hlt & Hl).
  destruct (scored_spec F (oc_to (eo_opt E)) (eo_exp E) st (eo_sel E) Hst pop s Hlt) as (scored & Esc & Hsnd & Hsc). rewrite Esc. cbn [bind].
  assert (HL : List.length scored = List.length s) by (rewrite <- Hsnd, map_length; auto).
  destruct (place_ok r1 (List.length scored)) as (k & r2 & Ek); [subst n; lia|]. rewrite Ek. cbn [bind]. assert (0 < List.length scored) by (subst n; lia).
  destruct (Nat.ltb_spec 0 (List.length scored)); [|lia]. cbn [assert_ bind].
  set (srt := sort_by (fun a b => cmp_or_greater F (fst a) (fst b)) scored).
  assert (HP : Permutation.Permutation scored srt) by apply sort_by_perm. pose proof (Permutation.Permutation_length HP).
  destruct (nth_error srt (Nat.min (k - 1) (List.length scored - 1))) as [[a c]|] eqn:En; [|apply nth_error_None in En; lia].
  unfold index at 1. rewrite En. cbn [expect bind]. rewrite Forall_forall in Hsc. destruct (Hsc (a, c)) as (m & Hm & _).
  { rewrite HP. eapply nth_error_In; eauto. }
  cbn [snd] in Hm. unfold index. rewrite Hm. discriminate.
Qed.

Lemma sound_good m : snd_ m -> good E nf B m.
Proof. intros [A1 A2 _ _]. split; auto. Qed.

Lemma evol_step_safe pop s d temp cur st : cur <= maxsize -> usable d -> Forall snd_ pop -> 2 <= List.length pop -> ready (ds_n_rows full) (es_ev s) ->
  maxsize <= List.length (st_norm st) -> safe (evol_step E pop s d bl temp cur st).
Proof.
  intros Hcur Hd Hs Hl Hr Hst. assert (Hne : pop <> []) by (intros ->; cbn in Hl; lia). rewrite Forall_forall in Hs.
  unfold evol_step. destruct (rng_real (es_rng s)) as [u g]. destruct (fgtb F u _).
  - apply safe_bind; [apply tournament_safe; auto|]. intros [a g1] Ha. apply tournament_in in Ha.
    destruct (next_generation_ok (mkEvoSt g1 (es_ev s) (es_id s) (es_birth s)) a d temp cur st Hcur Hd (sound_good _ (Hs _ Ha)) Hr) as (b & acc & k & s1 & ->). cbn [bind].
    apply safe_if; [discriminate|]. destruct (C26_replace_oldest T pop b Hne) as (i & p & -> & _). discriminate.
  - apply safe_bind; [apply tournament_safe; auto|]. intros [a1 g1] Ha1. apply tournament_in in Ha1.
    apply safe_bind; [apply tournament_safe; auto|]. intros [a2 g2] Ha2. apply tournament_in in Ha2.
    destruct (crossover_ok a1 a2 d cur Hcur Hd (sound_good _ (Hs _ Ha1)) (sound_good _ (Hs _ Ha2)) 10 (mkEvoSt g2 (es_ev s) (es_id s) (es_birth s)) Hr) as (b1 & b2 & acc & k & s1 & Ec).
    unfold crossover_generation. rewrite Ec. cbn [bind].
    apply safe_if; [discriminate|]. destruct (C26_replace_two_oldest T pop b1 b2 Hl) as (i & j & p & -> & _). discriminate.
Qed.

Lemma evol_steps_safe d temp cur st : cur <= maxsize -> usable d -> maxsize <= List.length (st_norm st) ->
  forall n pop s ev, Forall snd_ pop -> 2 <= List.length pop -> ready (ds_n_rows full) (es_ev s) -> safe (evol_steps E n pop s d bl temp cur st ev).
Proof.
  intros Hcur Hd Hst. induction n as [|n IH]; intros pop s ev Hs Hl Hr; cbn [evol_steps]; [discriminate|].
  apply safe_bind; [apply evol_step_safe; auto|]. intros [[p1 s1] k] E1. pose proof (evol_step_ready E _ _ _ _ _ _ _ _ _ _ _ E1 Hr) as Hr1.
  apply (evol_step_spec E nf B cur bl (evo0 cur Hcur)) in E1; auto; [|apply Hd]. apply IH; auto; [eapply each_new_sound; eauto|]. destruct E1 as [-> _]. auto.
Qed.

Lemma consider_total h m cur : snd_ m -> cur <= maxsize -> exists h', consider F (ec_umax C) D (ec_size C) (eo_stale E) h m cur = Ok h'.
Proof.
  intros Hm Hcur. destruct (expr_of_wf E nf B _ (so_expr _ _ _ _ _ Hm)) as [He _]. destruct (check_ok (m_expr m) cur He Hcur) as [b Eb]. unfold consider. unfold check in Eb. rewrite Eb. cbn [bind].
  destruct b; cbn [negb]; [|eauto]. destruct (m_complexity m =? 0); [eauto|]. destruct (Nat.leb_spec (List.length h) (m_complexity m)) as [|Hlt]; [eauto|].
  unfold index. destruct (nth_error h (m_complexity m)) as [o|] eqn:En; [|apply nth_error_None in En; lia]. cbn [expect bind]. unfold set_index.
  destruct (Nat.ltb_spec (m_complexity m) (List.length h)); [|lia]. destruct o; [destruct (is_less _)|]; eauto.
Qed.
Lemma update_total cur : cur <= maxsize -> forall ms h, Forall snd_ ms -> exists h', update_hof E h ms cur = Ok h'.
Proof.
  intros Hcur. unfold update_hof, update_from_members. induction ms as [|m ms IH]; intros h Hs; cbn; [eauto|]. inversion Hs; subst.
  destruct (consider_total h m cur) as [h1 ->]; auto. cbn [bind]. auto.
Qed.
Lemma sr_cycles_safe d cur st nn : cur <= maxsize -> usable d -> maxsize <= List.length (st_norm st) ->
  forall idx pop s best ev, Forall snd_ pop -> 2 <= List.length pop -> ready (ds_n_rows full) (es_ev s) -> safe (sr_cycles E idx nn pop s best d bl cur st ev).
Proof.
  intros Hcur Hd Hst. induction idx as [|i idx IH]; intros pop s best ev Hs Hl Hr; cbn [sr_cycles]; [discriminate|]. unfold reg_evol_cycle.
  apply safe_bind; [apply evol_steps_safe; auto|]. intros [[p1 s1] k] E1. pose proof (evol_steps_ready E _ _ _ _ _ _ _ _ _ _ _ _ _ E1 Hr) as Hr1.
  apply (evol_steps_spec E nf B cur bl (evo0 cur Hcur)) in E1; auto; [|apply Hd]. assert (H1 : Forall snd_ p1) by (eapply each_new_sound; eauto).
  destruct (update_total cur Hcur p1 best H1) as [h1 ->]. cbn [bind]. apply IH; auto. destruct E1 as [-> _]. auto.
Qed.
Lemma s_r_cycle_safe pop s d cur st : cur <= maxsize -> usable d -> maxsize <= List.length (st_norm st) -> Forall snd_ pop -> 2 <= List.length pop ->
  ready (ds_n_rows full) (es_ev s) -> safe (s_r_cycle E pop s d bl cur st).
Proof.
  intros Hcur Hd Hst Hs Hl Hr. unfold s_r_cycle. cbv zeta. destruct (update_total cur Hcur pop (hof_new maxsize) Hs) as [h1 ->]. cbn [bind]. apply sr_cycles_safe; auto.
Qed.

(** *** The second half of a task *)
Lemma simplify_ok m : good E nf B m -> exists m', simplify_member E nf m = Ok m'.
Proof.
  intros [Hw Hp]. pose proof (evo0 0 ltac:(lia)) as He0. pose proof (ok_small _ _ _ _ He0) as Hsm. destruct Hw as (t & Hr & Ht & Hn & Hc). unfold simplify_member.
  destruct (C15_simplify_well_formed T F (ec_O C) D nf (eo_ccfg E) ev_opts (m_expr m) t Hr) as (e2 & ch2 & t2 & E2 & R2 & T2 & L2 & Ho & _ & Hu & _ & Hch).
  { eapply tree_ok_ops; [exact Ht|]. intros a op Ha Hi. eapply reg_known_known; [apply He0|auto|]. eapply tree_ok_known; eauto. }
  { unfold represents in Hr. rewrite <- flatten_length, <- Hr. lia. }
  rewrite E2. cbn [bind]. destruct ch2; [|eauto]. unfold rebuild_plan. cbn [m_expr].
  destruct (compile_ok e2) as [p ->]; [|cbn; eauto]. exists t2. split; auto. split.
  - eapply tree_ok_ops; [exact T2|]. intros a op Ha Hi. unfold represents in R2. rewrite <- R2 in Hi. apply Ho in Hi. rewrite Hr in Hi. eapply tree_ok_known; eauto.
  - split; [lia|]. rewrite <- (seq_length (List.length (consts e2)) 0), <- Hu. pose proof (first_uses_le (nodes e2)). lia.
Qed.
Lemma optimize_members_ok d : usable d -> forall ms s gc ev, Forall (good E nf B) ms -> ready (ds_n_rows full) (es_ev s) -> grad_reach F (ec_O C) (ec_hash C) D seen gc ->
  d_rows gc = ds_n_rows d -> exists ms' s' gc' k, optimize_members E ms s gc d bl ev = Ok (ms', s', gc', k) /\ grad_reach F (ec_O C) (ec_hash C) D seen gc'.
Proof.
  intros Hd. induction ms as [|m ms IH]; intros s gc ev Hg Hr Hgc Hrw; cbn [optimize_members]; [eauto 6|]. inversion Hg; subst.
  destruct (rng_real (es_rng s)) as [u g]. destruct (fltb F u _).
  - destruct (optimize_ok g m d (es_ev s) gc (es_birth s)) as (g' & m' & ev' & gc' & nb' & imp & k & Eo & G1 & G2); auto. rewrite Eo. cbn [bind].
    pose proof (optimize_ready C (eo_opt E) _ _ _ _ _ _ _ _ _ _ _ _ _ _ _ Eo Hr) as Hr1.
    destruct (IH (mkEvoSt g' ev' (es_id s) nb') gc' (ev + k)) as (ms' & s' & gc2 & k2 & -> & G3); auto. cbn [bind]. eauto 6.
  - destruct (IH (mkEvoSt g (es_ev s) (es_id s) (es_birth s)) gc ev) as (ms' & s' & gc2 & k2 & -> & G3); auto. cbn [bind]. eauto 6.
Qed.
Lemma evaluate_members_ok d : usable d -> forall ms ev, Forall (good E nf B) ms -> ready (ds_n_rows full) ev -> exists ms' ev', evaluate_members E ms ev d bl = Ok (ms', ev').
Proof.
  intros Hd. induction ms as [|m ms IH]; intros ev Hg Hr; cbn [evaluate_members]; [eauto|]. inversion Hg; subst.
  destruct (evaluate_ok m d ev) as (m' & ev' & ok & Ev); auto. rewrite Ev. cbn [bind]. pose proof (evaluate_ready C _ _ _ _ _ _ _ _ Ev Hr) as Hr1.
  destruct (IH ev') as (ms' & ev2 & ->); auto. cbn. eauto.
Qed.
Lemma usable_full : usable full.
Proof. destruct (lv_data _ _ _ L) as (H1 & _). split; auto. Qed.
Lemma second_half_ok pop s gc d : usable d -> Forall (good E nf B) pop -> ready (ds_n_rows full) (es_ev s) -> grad_reach F (ec_O C) (ec_hash C) D seen gc ->
  exists pop' s' gc' k, optimize_and_simplify_population E pop s gc full d bl = Ok (pop', s', gc', k) /\ grad_reach F (ec_O C) (ec_hash C) D seen gc'.
Proof.
  intros Hd Hg Hr Hgc. unfold optimize_and_simplify_population. pose proof (evo0 0 ltac:(lia)) as He0.
  assert (H1 : exists p1, (if eo_simplify E then mapM (simplify_member E nf) pop else Ok pop) = Ok p1 /\ Forall (good E nf B) p1).
  { destruct (eo_simplify E); [|eauto]. assert (X : exists p1, mapM (simplify_member E nf) pop = Ok p1).
    { clear - Hg L. induction Hg as [|m ms Hm _ IH]; cbn [mapM]; [eauto|]. destruct (simplify_ok m Hm) as [m' ->]. destruct IH as [l ->]. cbn. eauto. }
    destruct X as [p1 X]. exists p1. split; auto. eapply (simplify_all E nf B 0 He0); eauto. }
  destruct H1 as (p1 & -> & G1). cbn [bind].
  assert (H2 : exists p2 s2 gc2 k2, (if oc_enabled (eo_opt E) && fgtb F (eo_opt_prob E) (fzero F) then
       optimize_members E p1 (mkEvoSt (es_rng s) (ensure_n_rows F (es_ev s) (ds_n_rows d)) (es_id s) (es_birth s)) (set_rows gc (ds_n_rows d)) d bl 0
     else Ok (p1, s, gc, 0)) = Ok (p2, s2, gc2, k2) /\ Forall (good E nf B) p2 /\ grad_reach F (ec_O C) (ec_hash C) D seen gc2 /\ ready (ds_n_rows full) (es_ev s2)).
  { destruct (_ && _); [|eauto 10]. pose proof Hd as (_ & Hrw & _).
    assert (R1 : ready (ds_n_rows full) (ensure_n_rows F (es_ev s) (ds_n_rows d))) by (rewrite Hrw; apply ensure_ready, Hr).
    destruct (optimize_members_ok d Hd p1 (mkEvoSt (es_rng s) (ensure_n_rows F (es_ev s) (ds_n_rows d)) (es_id s) (es_birth s)) (set_rows gc (ds_n_rows d)) 0)
      as (ms' & s' & gc' & k & Eo & G3); auto; [apply greach_rows; auto|].
    exists ms', s', gc', k. split; auto. split; [|split; auto].
    - eapply (optimize_all E nf B bl); [|exact Eo]. exact G1.
    - eapply (optimize_members_ready E); [exact Eo|]. exact R1. }
  destruct H2 as (p2 & s2 & gc2 & k2 & -> & G2 & G3 & R2). cbn [bind].
  destruct (evaluate_members_ok full usable_full p2 (ensure_n_rows F (es_ev s2) (ds_n_rows full))) as (p3 & ev3 & ->); auto; [apply ensure_ready, R2|]. cbn. eauto 6.
Qed.

(** *** A task *)
Definition held (ps : pop_state T) : Prop := grad_reach F (ec_O C) (ec_hash C) D seen (ps_gc ps) /\ forall b, ps_batch ps = Some b -> fit b full.

Lemma phase_ok ps : held ps -> exists d ps', phase S0 full ps = Ok (d, ps') /\ usable d /\ held ps' /\ ps_gc ps' = ps_gc ps.
Proof.
  intros [Hg Hb]. destruct (lv_data _ _ _ L) as (Hd & Hn & _). unfold phase. destruct (sc_batching S0) eqn:Eb; [|exists full, ps; split; auto; split; [apply usable_full|split; [split|]; auto]].
  destruct (lv_rows _ _ _ L) as [?|Hbs]; [congruence|]. destruct (Nat.eqb_spec (ds_n_rows full) 0); [lia|]. cbv zeta.
  assert (H1 : exists b, (if match ps_batch ps with
                       | None => true
                       | Some b => negb (ds_n_rows b =? Nat.max (sc_batch_size S0) 1) || negb (ds_n_features b =? ds_n_features full)
                       end then make_batch_buffer F (eo_of_nat E) full (Nat.max (sc_batch_size S0) 1) else expect (ps_batch ps)) = Ok b
     /\ fit b full /\ ds_n_rows b = ds_n_rows full).
  { assert (Hnew : exists b, make_batch_buffer F (eo_of_nat E) full (Nat.max (sc_batch_size S0) 1) = Ok b /\ fit b full /\ ds_n_rows b = ds_n_rows full).
    { destruct (C35_buffer_fits T F (eo_of_nat E) full (Nat.max (sc_batch_size S0) 1) Hd Hn) as (b & E1 & E2 & E3 & _). exists b. split; auto. split; auto. lia. }
    destruct (ps_batch ps) as [b|]; auto. destruct (Nat.eqb_spec (ds_n_rows b) (Nat.max (sc_batch_size S0) 1)); cbn [negb orb]; auto.
    destruct (Nat.eqb_spec (ds_n_features b) nf); cbn [negb]; auto. exists b. split; auto. split; auto. congruence. }
  destruct H1 as (b & -> & Hf & Hr). cbn [bind]. destruct (C35_resample_rows T T b full (es_rng (ps_st ps)) Hf) as (b' & r' & rows & -> & B1 & B2 & B3 & B4 & _). cbn [bind].
  do 2 eexists. split; [reflexivity|]. cbn [ps_gc]. split; [split; [auto|split; congruence]|]. split; auto. split; cbn; auto. intros b0 [= <-]. split; auto.
Qed.

Lemma best_sub_total (ms : list (member T)) topn : exists l, best_sub_pop F ms topn = Ok l.
Proof.
  unfold best_sub_pop. cbv zeta. set (cmp := fun i j => _). set (srt := sort_by cmp (seq 0 (List.length ms))).
  assert (HP : Permutation.Permutation (seq 0 (List.length ms)) srt) by apply sort_by_perm.
  assert (HI : forall i, In i (firstn (Nat.min topn (List.length srt)) srt) -> i < List.length ms).
  { intros i Hi. assert (In i srt) by (rewrite <- (firstn_skipn (Nat.min topn (List.length srt)) srt); apply in_or_app; auto).
    rewrite <- HP in H. apply in_seq in H. lia. }
  revert HI. generalize (firstn (Nat.min topn (List.length srt)) srt). induction l as [|i l IH]; intros HI; cbn [mapM]; [eauto|].
  unfold index at 1. destruct (nth_error ms i) eqn:En; [|apply nth_error_None in En; specialize (HI i (or_introl eq_refl)); lia]. cbn [expect bind].
  destruct IH as [l' ->]; [intros; apply HI; right; auto|]. cbn. eauto.
Qed.

Definition live_task (t : task T) : Prop :=
  pop_inv S0 full snd_ (tk_pop t) /\ held (tk_pop t) /\ tk_cur t <= maxsize /\ maxsize <= List.length (st_norm (tk_stats t)) /\ tk_idx t < sc_populations S0.
Definition live_result (r : task_result T) : Prop :=
  pop_inv S0 full snd_ (tr_pop r) /\ held (tr_pop r) /\ tr_cur r <= maxsize /\ tr_idx r < sc_populations S0 /\ Forall snd_ (tr_sub r) /\ (forall c m, stored (tr_seen r) c m -> snd_ m).

Lemma execute_live t : live_task t -> safe (execute_task S0 full bl t) /\ forall r, execute_task S0 full bl t = Ok r -> live_result r.
Proof.
  intros ((Pl & Ps & Pr) & Hh & Hcur & Hst & Hi). pose proof (lv_size _ _ _ L) as Hsz. 
  assert (Hmain : safe (execute_task S0 full bl t) /\ forall r, execute_task S0 full bl t = Ok r -> held (tr_pop r)).
  { unfold execute_task. destruct (phase_ok _ Hh) as (d1 & ps1 & E1 & U1 & [H1 H1'] & G1). rewrite E1. cbn [bind]. pose proof (phase_frame S0 full _ _ _ E1) as (_ & P1 & V1 & _).
    rewrite P1.
    assert (Hs : safe (s_r_cycle E (ps_pop (tk_pop t)) (ps_st ps1) d1 bl (tk_cur t) (tk_stats t))) by (apply s_r_cycle_safe; auto; [lia|rewrite V1; auto]).
    destruct (s_r_cycle E (ps_pop (tk_pop t)) (ps_st ps1) d1 bl (tk_cur t) (tk_stats t)) as [[[[pop s] seen] k1]| |] eqn:Ec; [|congruence|split; [discriminate|intros r X; discriminate]].
    cbn [bind]. pose proof (s_r_cycle_ready E _ _ _ _ _ _ _ _ _ _ _ Ec ltac:(rewrite V1; exact Pr)) as R1.
    destruct (C42_iteration _ _ _ _ _ _ _ _ _ _ _ _ _ _ (evo0 _ Hcur) Ps (proj2 (proj2 U1)) Ec) as (_ & M1 & _).
    destruct (phase_ok (mkPop pop s (ps_gc ps1) (ps_batch ps1))) as (d2 & ps2 & E2 & U2 & [H2 H2'] & G2); [split; auto|]. rewrite E2. cbn [bind].
    pose proof (phase_frame S0 full _ _ _ E2) as (_ & P2 & V2 & _). cbn [ps_pop ps_st] in *. rewrite P2.
    destruct (second_half_ok pop (ps_st ps2) (ps_gc ps2) d2) as (p3 & s3 & gc3 & k3 & E3 & G3); auto; [|rewrite V2; auto|].
    { apply Forall_forall. intros m Hm. apply sound_good, M1, Hm. }
    rewrite E3. cbn [bind]. destruct (best_sub_total p3 (sc_topn S0)) as [sub ->]. cbn [bind]. split; [discriminate|]. intros r [= <-]. cbn. split; auto. }
  destruct Hmain as [M1 M2]. split; auto. intros r Hr. pose proof (task_sound S0 full bl B HS t r Pl Ps Pr Hcur Hr) as (T1 & T2 & T3 & T4).
  pose proof (execute_idx S0 _ _ _ _ Hr) as [X1 X2]. split; [split; [|split]; auto|]. split; auto. split; [lia|]. split; [lia|]. split; auto.
  apply Forall_forall. intros m Hm. rewrite Forall_forall in T2. apply T2. eapply execute_sub; eauto.
Qed.

(** *** The coordinator *)
Record live_st (st : search_st T) : Prop := {
  ls_inv : st_inv S0 full snd_ snd_ snd_ (within E maxsize) st;
  ls_held : forall ps, In (Some ps) (ss_pops st) -> held ps;
  ls_pops : List.length (ss_pops st) = sc_populations S0;
  ls_subs : List.length (ss_subs st) = sc_populations S0;
  ls_freq : List.length (st_freq (ss_stats st)) = maxsize;
  ls_norm : List.length (st_norm (ss_stats st)) = maxsize }.

Lemma normalize_lengths (s : stats T) : List.length (st_freq s) = maxsize -> List.length (st_norm s) = maxsize -> List.length (st_norm (normalize F s)) = maxsize.
Proof. intros H1 H2. unfold normalize. cbv zeta. destruct (feqb F _ _); cbn [st_norm]; now rewrite map_length. Qed.
Lemma update_lengths sizes : forall s : stats T, List.length (st_freq (update_from_population F s sizes)) = List.length (st_freq s)
  /\ List.length (st_norm (update_from_population F s sizes)) = List.length (st_norm s).
Proof.
  unfold update_from_population. induction sizes as [|n sizes IH]; intros s; cbn [fold_left]; auto. destruct (IH (update_frequencies F s n)) as [-> ->].
  unfold update_frequencies. destruct (_ && _); auto. destruct (nth_error _ _); auto. cbn. rewrite upd_length. auto.
Qed.
Lemma window_lengths (s : stats T) : List.length (st_freq (move_window F (eo_of_nat E) (eo_eps E) s)) = List.length (st_freq s)
  /\ List.length (st_norm (move_window F (eo_of_nat E) (eo_eps E) s)) = List.length (st_norm s).
Proof.
  unfold move_window. cbv zeta. destruct (fleb F _ _); auto. cbn [st_freq st_norm]. split; auto.
  generalize (fsub F (wsum F (st_freq s)) (st_window s)). generalize (st_freq s). generalize max_turns. induction n as [|n IH]; intros fr rem; cbn [move_window_loop]; auto.
  destruct (negb _); auto. destruct (filter _ fr) eqn:Ef; auto. destruct (negb _); auto. rewrite <- Ef. destruct (fltb F (fmul F _ _) _); rewrite ?IH, map_length; auto.
Qed.

Lemma dispatch_live st i : live_st st -> i < sc_populations S0 -> safe (dispatch S0 st i)
  /\ forall st' t, dispatch S0 st i = Ok (Some (st', t)) -> live_st st' /\ live_task t.
Proof.
  intros [Hi Hh Hp Hsb Hf Hn] Hlt. split.
  - unfold dispatch. unfold index at 1. destruct (nth_error (ss_pops st) i) as [o|] eqn:En; [|apply nth_error_None in En; lia]. cbn [expect bind]. destruct o; [|discriminate].
    unfold set_index. destruct (Nat.ltb_spec i (List.length (ss_pops st))); [|lia]. cbn [bind]. cbv zeta. apply safe_bind; [apply (lv_warmup _ _ _ L)|]. discriminate.
  - intros st' t Hd. pose proof (dispatch_inv S0 full snd_ snd_ snd_ (within E maxsize) (sk_limit _ _ _ HS) _ _ _ _ Hi Hd) as (J1 & J2 & J3).
    apply dispatch_some in Hd as (D1 & D2 & D3 & D4 & D5 & D6 & D7 & _ & _ & _ & D8 & _). split.
    + split; auto.
      * intros ps Hin. rewrite D3 in Hin. apply in_upd in Hin as [Hin|Hin]; [auto|discriminate].
      * now rewrite D3, upd_length.
      * congruence.
      * congruence.
      * congruence.
    + split; auto. split; [apply Hh; eapply nth_error_In; eauto|]. split; auto. split; [|lia]. rewrite D8, normalize_lengths; auto.
Qed.

Lemma offer_best_total cur : cur <= maxsize -> forall ms h b, Forall snd_ ms -> exists h' b', offer_best S0 ms h b cur = Ok (h', b').
Proof.
  intros Hcur. induction ms as [|m ms IH]; intros h b Hs; cbn [offer_best]; [eauto|]. inversion Hs as [|? ? Hm]; subst.
  destruct (consider_total h m cur) as [h1 ->]; auto. cbn [bind]. destruct (expr_of_wf E nf B _ (so_expr _ _ _ _ _ Hm)) as [He _].
  destruct (check_ok (m_expr m) cur He Hcur) as [k ->]. cbn [bind]. auto.
Qed.
Lemma migrate_total ps mig frac : held ps -> exists ps', migrate S0 ps mig frac = Ok ps' /\ held ps'.
Proof.
  intros Hh. unfold migrate. cbv zeta.
  destruct (C27_migration T T F (eo_of_nat E) (sc_poisson S0) (ps_pop ps) mig frac (es_rng (ps_st ps)) (es_id (ps_st ps)) (es_birth (ps_st ps))) as (ms' & r' & n & f & -> & _).
  cbn [bind]. eexists. split; [reflexivity|]. exact Hh.
Qed.

(** The premises of the invariant scheme, at [sound]. *)
Lemma same_ m : snd_ m -> snd_ m.
Proof. auto. Qed.
Lemma same_' : sc_hof_migration S0 = true -> forall m, snd_ m -> snd_ m.
Proof. auto. Qed.
Lemma copy_ m id p b : snd_ m -> snd_ (readdress m id p b).
Proof. apply sound_copy; auto. Qed.
Lemma feas_ m cur : snd_ m -> cur <= maxsize -> check E (m_expr m) cur = Ok true -> within E maxsize (m_expr m).
Proof. intros Hm. eapply sound_feasible; eauto; exact HS. Qed.
Lemma new_ e g g' id b m m' ev ev' ok : random_expr_append_ops F D (eo_reg E) nf 3 maxsize g = Ok (e, g') ->
  from_expr C id None b e nf = Ok m -> ready (ds_n_rows full) ev -> evaluate C m full bl ev = Ok (m', ev', ok) -> snd_ m'.
Proof. intros X1 X2 X3 X4. eapply (new_sound S0 full bl B HS); eauto. Qed.

Lemma apply_live st r : live_st st -> live_result r -> exists st', apply_task_result S0 st r = Ok st' /\ live_st st'.
Proof.
  intros [Hi Hh Hp Hsb Hf Hn] (Pi & Ph & Hcur & Hlt & Hsub & Hseen).
  assert (Hex : exists st', apply_task_result S0 st r = Ok st' /\ (forall ps, In (Some ps) (ss_pops st') -> held ps)
    /\ ss_stats st' = move_window F (eo_of_nat E) (eo_eps E) (update_from_population F (ss_stats st) (map m_complexity (ps_pop (tr_pop r))))).
  { unfold apply_task_result. cbv zeta. unfold set_index at 1. destruct (Nat.ltb_spec (tr_idx r) (List.length (ss_subs st))); [|lia]. cbn [bind].
    unfold index. destruct (nth_error (ss_pops st) (tr_idx r)) eqn:En; [|apply nth_error_None in En; lia]. cbn [expect bind].
    unfold offer. destruct (update_total (tr_cur r) Hcur (hof_members (tr_seen r)) (ss_hall st)) as [h1 ->]; [apply hall_members_inv; auto|]. cbn [bind].
    pose proof Pi as (_ & Psnd & _). destruct (offer_best_total (tr_cur r) Hcur (ps_pop (tr_pop r)) h1 (ss_best st) Psnd) as (h2 & b2 & ->). cbn [bind].
    assert (H1 : exists ps1, (if sc_migration S0 then migrate S0 (tr_pop r) (others (upd (ss_subs st) (tr_idx r) (tr_sub r)) (tr_idx r)) (sc_frac S0) else Ok (tr_pop r)) = Ok ps1 /\ held ps1)
      by (destruct (sc_migration S0); [apply migrate_total; auto|eauto]).
    destruct H1 as (ps1 & -> & G1). cbn [bind].
    assert (H2 : exists ps2, (if sc_hof_migration S0 then migrate S0 ps1 (pareto_front F h2) (sc_frac_hof S0) else Ok ps1) = Ok ps2 /\ held ps2)
      by (destruct (sc_hof_migration S0); [apply migrate_total; auto|eauto]).
    destruct H2 as (ps2 & -> & G2). cbn [bind]. unfold set_index. destruct (Nat.ltb_spec (tr_idx r) (List.length (ss_pops st))); [|lia]. cbn [bind].
    eexists. split; [reflexivity|]. cbn. split; auto. intros ps Hin. apply in_upd in Hin as [Hin|Hin]; auto. injection Hin as ->. auto. }
  destruct Hex as (st' & Ea & Hh' & Hstats). exists st'. split; auto.
  pose proof (apply_frame S0 _ _ _ Ea) as (ps & A1 & A2 & A3 & A4 & _).
  destruct (window_lengths (update_from_population F (ss_stats st) (map m_complexity (ps_pop (tr_pop r))))) as [W1 W2]. destruct (update_lengths (map m_complexity (ps_pop (tr_pop r))) (ss_stats st)) as [W3 W4].
  split; auto.
  - exact (apply_inv S0 full snd_ snd_ snd_ (within E maxsize) same_ same_ same_' copy_ (sk_limit _ _ _ HS) feas_ st r st' Hi Pi (proj1 (proj2 Pi)) Hsub Hseen Hcur Ea).
  - rewrite A1, upd_length. auto.
  - rewrite A3, upd_length. auto.
  - rewrite Hstats. congruence.
  - rewrite Hstats. congruence.
Qed.
Lemma with_order_live st g : live_st st -> live_st (with_order st g).
Proof. intros [[I1 I2 I3 I4] H2 H3 H4 H5 H6]. split; auto. split; auto. Qed.

(** *** The start *)
Lemma init_members_total : forall n s h, ready (ds_n_rows full) (es_ev s) -> hall_inv S0 snd_ (within E maxsize) h ->
  exists ms s' h', init_members S0 n full bl s h = Ok (ms, s', h').
Proof.
  pose proof (evo0 0 ltac:(lia)) as He0. pose proof (ok_small _ _ _ _ He0) as Hsm. pose proof (ok_cur _ _ _ _ (sk_evo _ _ _ HS)) as Hcb.
  pose proof (reg_known_setting _ _ _ _ (ok_setting _ _ _ _ He0)) as Hset.
  induction n as [|n IH]; intros s h Hr Hh; cbn [init_members]; [eauto|].
  destruct (C18_random_expr_append_ops T F D nf known (eo_reg E) 3 maxsize (es_rng s) Hset ltac:(lia)) as (e & g' & x & Ee & _). rewrite Ee. cbn [bind].
  pose proof (new_wf S0 full B HS _ _ _ Ee) as Hw.
  destruct (from_expr_ok (es_id s) None (es_birth s) e Hw) as (m & Em). rewrite Em. cbn [bind].
  assert (Hgm : good E nf B m) by (apply from_expr_frame in Em as (_ & _ & _ & I4 & I5); split; [rewrite I4; auto|unfold plan_fresh; rewrite I4; exact I5]).
  destruct (evaluate_ok m full (es_ev s) usable_full Hgm Hr) as (m' & ev' & ok & Ev). rewrite Ev. cbn [bind].
  destruct (new_sound S0 full bl B HS _ _ _ _ _ _ _ _ _ _ Ee Em Ev) as (Hsm' & _).
  destruct (consider_total h m' maxsize Hsm' ltac:(lia)) as [h1 E1]. rewrite E1. cbn [bind].
  destruct (IH (mkEvoSt g' ev' (es_id s + 1) (es_birth s + 1)) h1) as (ms & s' & h' & ->); [cbn; eapply evaluate_ready; eauto| |cbn; eauto].
  exact (consider_inv S0 snd_ snd_ snd_ (within E maxsize) same_ same_ same_' copy_ (sk_limit _ _ _ HS) feas_ _ _ _ _ Hh Hsm' (Nat.le_refl _) E1).
Qed.

Lemma init_pops_total : forall n i h, hall_inv S0 snd_ (within E maxsize) h -> exists ps h', init_pops S0 n i full bl h = Ok (ps, h') /\ Forall held ps.
Proof.
  induction n as [|n IH]; intros i h Hh; cbn [init_pops]; [eauto|]. cbv zeta.
  assert (Hr : ready (ds_n_rows full) (es_ev (mkEvoSt (sc_seed S0 i) (evaluator_new F (ds_n_rows full)) (i * sc_stride S0) 0))) by (cbn; split; cbn; [apply fill_length|reflexivity]).
  destruct (init_members_total (sc_population_size S0) _ h Hr Hh) as (ms & s' & h' & Ei). rewrite Ei. cbn [bind].
  assert (H1 : Forall snd_ ms /\ ready (ds_n_rows full) (es_ev s') /\ hall_inv S0 snd_ (within E maxsize) h').
  { exact (init_members_inv S0 full bl snd_ snd_ snd_ (within E maxsize) same_ same_ same_' copy_ (sk_limit _ _ _ HS) feas_ new_ _ _ _ _ _ _ Hr Hh Ei). }
  destruct H1 as (_ & _ & H3). destruct (IH (S i) h' H3) as (ps & h2 & E2 & G2). rewrite E2. cbn [bind]. do 2 eexists. split; [reflexivity|]. constructor; auto. split; cbn; [constructor|discriminate].
Qed.

Lemma init_best_total : forall ms b, Forall snd_ ms -> exists o, init_best S0 ms b = Ok o.
Proof.
  induction ms as [|m ms IH]; intros b Hs; cbn [init_best]; [eauto|]. inversion Hs as [|? ? Hm]; subst. destruct (expr_of_wf E nf B _ (so_expr _ _ _ _ _ Hm)) as [He _].
  destruct (check_ok (m_expr m) maxsize He ltac:(lia)) as [k ->]. cbn [bind]. auto.
Qed.

Lemma init_live : exists st, init_search S0 full bl = Ok st /\ live_st st.
Proof.
  destruct (init_pops_total (sc_populations S0) 0 (hof_new maxsize)) as (ps & h & Ep & Hheld); [apply hall_new_inv|].
  assert (Hp : Forall (fun p => pop_inv S0 full snd_ p /\ Forall snd_ (ps_pop p)) ps /\ hall_inv S0 snd_ (within E maxsize) h).
  { exact (init_pops_inv S0 full bl snd_ snd_ snd_ (within E maxsize) same_ same_ same_' copy_ (sk_limit _ _ _ HS) feas_ new_ _ _ _ _ _ (hall_new_inv S0 _ _) Ep). }
  destruct Hp as [Hp Hh].
  assert (Hst : exists st, init_search S0 full bl = Ok st /\ (forall ps, In (Some ps) (ss_pops st) -> held ps) /\ ss_stats st = stats_new F (eo_of_nat E) maxsize window_size).
  { unfold init_search. rewrite Ep. cbn [bind].
    destruct (init_best_total (List.concat (map ps_pop ps)) None) as [o ->].
    { apply Forall_forall. intros m Hm. apply in_concat in Hm as (l & Hl & Hm). apply in_map_iff in Hl as (p & <- & Hpin). rewrite Forall_forall in Hp. destruct (Hp p Hpin) as [_ X].
      rewrite Forall_forall in X. auto. }
    cbn [bind].
    assert (Hb : exists b, match o with Some m => Ok m | None => let! p := expect (nth_error ps 0) in index (ps_pop p) 0 end = Ok b).
    { destruct o as [m|]; [eauto|]. pose proof (init_pops_home S0 _ _ _ _ _ _ _ Ep) as Hlen. pose proof (lv_populations _ _ _ L) as Hpos. pose proof (lv_size _ _ _ L).
      destruct ps as [|p ps]; [cbn in Hlen; lia|]. cbn [nth_error expect bind]. inversion Hp as [|? ? [(Hl & _) _]]; subst. unfold index. destruct (ps_pop p); [cbn in Hl; lia|]. cbn. eauto. }
    destruct Hb as [b ->]. cbn [bind].
    assert (Hs : exists subs, mapM (fun p => best_sub_pop F (ps_pop p) (sc_topn S0)) ps = Ok subs).
    { clear. induction ps as [|p ps IH]; cbn [mapM]; [eauto|]. destruct (best_sub_total (ps_pop p) (sc_topn S0)) as [l ->]. destruct IH as [subs ->]. cbn. eauto. }
    destruct Hs as [subs ->]. cbn [bind]. eexists. split; [reflexivity|]. cbn. split; auto. intros q Hq. apply in_map_iff in Hq as (x & Ex & Hx). injection Ex as ->. rewrite Forall_forall in Hheld. auto. }
  destruct Hst as (st & Es & H1 & H2). exists st. split; auto. pose proof (init_home S0 _ _ _ Es) as ((L1 & L2 & _) & _). split; auto.
  - exact (init_inv S0 full bl snd_ snd_ snd_ (within E maxsize) same_ same_ same_' copy_ (sk_limit _ _ _ HS) feas_ new_ _ Es).
  - rewrite H2. unfold stats_new. cbn. apply fill_length.
  - rewrite H2. unfold stats_new. cbn. rewrite map_length. apply fill_length.
Qed.

(** *** The drivers *)
Definition live_co (c : @coord T) : Prop :=
  live_st (co_st c) /\ (forall t, In t (co_flight c) -> live_task t) /\ forall i, In i (co_tasks c) -> i < sc_populations S0.
Lemma cstep_live nw c1 e c2 : live_co c1 -> cstep S0 full bl nw c1 e c2 -> live_co c2.
Proof.
  intros (Hst & Hfl & Ht) Hc. inversion Hc; subst; cbn [co_st co_flight co_tasks] in *.
  - split; [apply with_order_live; auto|]. split; auto. cbn. intros i Hi. destruct (C36_shuffle_is_permutation (ss_order st) (seq 0 (List.length (ss_pops st)))) as (o & g' & Eo & HP).
    rewrite H in Eo. injection Eo as <- <-. rewrite <- HP in Hi. apply in_seq in Hi. rewrite (ls_pops _ Hst) in Hi. lia.
  - split; auto. split; auto. cbn. intros j Hj. apply Ht. right; auto.
  - destruct (dispatch_live st i Hst (Ht i (or_introl eq_refl))) as [_ Hd]. apply Hd in H0 as [H1 H2]. split; auto. split; cbn.
    + intros t0 Hin. apply in_app_or in Hin as [Hin|[<-|[]]]; auto.
    + intros j Hj. apply Ht. right; auto.
  - assert (Hl : live_task t) by (apply Hfl; apply in_or_app; right; left; auto). apply execute_live in Hl as [_ Hl]. apply Hl in H0.
    destruct (apply_live st r Hst H0) as (st2 & E2 & H2). rewrite H1 in E2. injection E2 as <-. split; auto. split; auto. cbn.
    intros t0 Hin. apply Hfl. apply in_app_or in Hin as [Hin|Hin]; apply in_or_app; [left|right; right]; auto.
Qed.
Lemma csteps_live nw c1 es c2 : live_co c1 -> csteps S0 full bl nw c1 es c2 -> live_co c2.
Proof. intros Hc Hs. induction Hs; auto. apply IHHs. eapply cstep_live; eauto. Qed.

Lemma advances_live st l st' : live_st st -> advances S0 full bl st l st' -> live_st st'.
Proof.
  intros Hst Ha. induction Ha as [st g|st g i st1 l st2 H1 _ IH]; [apply with_order_live; auto|]. apply IH. destruct H1 as (st3 & t & r & Hd & He & Hp).
  apply (with_order_live _ g) in Hst. pose proof Hd as Hd'. apply dispatch_some in Hd' as (D1 & _). assert (Hi : i < sc_populations S0) by (rewrite <- (ls_pops _ Hst); apply nth_error_Some; congruence).
  destruct (dispatch_live _ i Hst Hi) as [_ Hl]. apply Hl in Hd as [H2 H3]. apply execute_live in H3 as [_ H3]. destruct (apply_live _ r H2 (H3 _ He)) as (st4 & E4 & H4).
  rewrite Hp in E4. injection E4 as <-. exact H4.
Qed.
Lemma step_one_safe en st0 l : engine_ok S0 en st0 l -> live_st st0 -> en_data en = full -> en_bl en = bl -> safe (step_one_cycle S0 en).
Proof.
  intros Hen Hst Ed Eb. unfold step_one_cycle. destruct (is_finished S0 en) eqn:Ef; [discriminate|]. rewrite (is_finished_spec S0 _ _ _ Hen) in Ef. apply Nat.eqb_neq in Ef.
  apply safe_bind.
  { unfold prepare_iteration. destruct (_ <=? _); [discriminate|]. destruct (_ && _); [discriminate|]. cbv zeta.
    destruct (C36_shuffle_is_permutation (ss_order (en_st en)) (seq 0 (List.length (ss_pops (en_st en))))) as (o & g & -> & _). discriminate. }
  intros en1 Hp. destruct (prepare_ok S0 _ _ _ _ Hen Ef Hp) as (Hen1 & Hn & Hlen & Hit & Ed1 & Eb1). destruct (is_finished S0 en1); [discriminate|].
  unfold index. destruct (nth_error (en_tasks en1) (en_next en1)) as [i|] eqn:En; [|apply nth_error_None in En; lia]. cbn [expect bind]. cbv zeta.
  pose proof (eo_adv _ _ _ _ Hen1) as Hadv. rewrite Ed1, Eb1, Ed, Eb in Hadv. apply advances_live in Hadv; auto.
  assert (Hi : i < sc_populations S0).
  { destruct (eo_tasks _ _ _ _ Hen1) as [(Ez & _)|(P & _)]; [congruence|]. apply nth_error_In in En. rewrite <- P in En. apply in_seq in En. lia. }
  destruct (dispatch_live _ i Hadv Hi) as [Hs Hl]. apply safe_bind; auto. intros [[st t]|] Hd; [|discriminate]. apply Hl in Hd as [H2 H3]. apply execute_live in H3 as [Hs3 H3].
  rewrite Ed1, Eb1, Ed, Eb. apply safe_bind; auto. intros r Hr. destruct (apply_live _ r H2 (H3 _ Hr)) as (st4 & -> & _). discriminate.
Qed.
Lemma step_loop_safe : forall n en st0 l c, engine_ok S0 en st0 l -> live_st st0 -> en_data en = full -> en_bl en = bl -> safe (step_loop S0 n en c).
Proof.
  induction n as [|n IH]; intros en st0 l c Hen Hst Ed Eb; cbn [step_loop]; [discriminate|]. apply safe_bind; [eapply step_one_safe; eauto|].
  intros [en1 more] H1. destruct (step_one_ok S0 _ _ _ _ _ Hen H1) as [(-> & _)|(-> & _ & i & _ & Hen1 & Ed1 & Eb1)]; [discriminate|]. eapply IH; eauto; congruence.
Qed.
Lemma steps_safe : forall ns en st0 l, engine_ok S0 en st0 l -> live_st st0 -> en_data en = full -> en_bl en = bl -> safe (steps S0 en ns).
Proof.
  induction ns as [|n ns IH]; intros en st0 l Hen Hst Ed Eb; cbn [steps]; [discriminate|]. apply safe_bind; [eapply step_loop_safe; eauto|].
  intros [en1 k] H1. apply (step_loop_ok S0 _ _ _ _ _ _ _ Hen) in H1 as (l1 & Hen1 & _ & _ & Ed1 & Eb1). apply safe_bind; [eapply IH; eauto; congruence|]. intros [? ?] _. discriminate.
Qed.
Lemma run_loop_safe : forall fuel en st0 l, engine_ok S0 en st0 l -> live_st st0 -> en_data en = full -> en_bl en = bl -> safe (run_loop S0 fuel en).
Proof.
  induction fuel as [|n IH]; intros en st0 l Hen Hst Ed Eb; cbn [run_loop]; [discriminate|]. apply safe_bind; [eapply step_one_safe; eauto|].
  intros [en1 more] H1. destruct (step_one_ok S0 _ _ _ _ _ Hen H1) as [(-> & _)|(-> & _ & i & _ & Hen1 & Ed1 & Eb1)]; [discriminate|]. eapply IH; eauto; congruence.
Qed.
End Live.

Lemma baseline_live {T W} (S0 : search_cfg T W) full B : live S0 full B -> exists bl, baseline_for S0 full = Ok bl.
Proof.
  intros L. unfold baseline_for. destruct (ec_use_baseline (eo_C (sc_E S0))) eqn:Eu; [|eauto]. destruct (lv_baseline _ _ _ L Eu) as [HD Hz]. destruct (lv_data _ _ _ L) as (Hd & Hn & Hf).
  destruct (proj1 (lv_loss _ _ _ L full Hd) (map (fun _ => fzero (ec_F (eo_C (sc_E S0)))) (seq 0 (ds_n_rows full)))) as [l El]; [now rewrite map_length, seq_length|].
  eexists. eapply C34_baseline; eauto.
Qed.

(** ** C49 *)

(** The stepwise engine: it can be created; no sequence of [step] calls panics, nor does running to completion. (The sampling of a tournament repeats draws until they
    are distinct; the model bounds the repetitions by [eo_fuel] and answers [OutOfFuel] beyond, which no bound on the code's side corresponds to.) *)
Theorem C49_engine : forall (T W : Type) (S0 : search_cfg T W) full B, live S0 full B ->
  exists en0, engine_new S0 full = Ok en0
    /\ (forall ns, steps S0 en0 ns <> Panic) /\ (forall fuel, run_loop S0 fuel en0 <> Panic).
Proof.
  intros T W S0 full B L. destruct (baseline_live S0 full B L) as [bl Eb]. destruct (init_live S0 full bl B L) as (st & Es & Hl).
  assert (En : engine_new S0 full = Ok (mkEngine st full bl 0 [] 0)) by (unfold engine_new; rewrite Eb; cbn [bind]; rewrite Es; reflexivity).
  exists (mkEngine st full bl 0 [] 0). split; auto. apply engine_new_ok in En as (Hen & _). cbn [en_st] in Hen. split.
  - intros ns. eapply (steps_safe S0 full bl B L); eauto.
  - intros fuel. eapply (run_loop_safe S0 full bl B L); eauto.
Qed.

(** The parallel search, with any number of workers and any arrival order: no worker panics, no result makes the coordinator panic, the next dispatch does not panic; so
    unless it has finished, the search can go on, or some worker is still busy drawing a tournament. *)
Theorem C49_parallel : forall (T W : Type) (S0 : search_cfg T W) full bl B threads, live S0 full B ->
  exists st0, init_search S0 full bl = Ok st0
    /\ forall es c, csteps S0 full bl (n_workers S0 threads) (parallel_start S0 st0) es c ->
       (forall t, In t (co_flight c) -> execute_task S0 full bl t <> Panic
          /\ forall r, execute_task S0 full bl t = Ok r -> exists st', apply_task_result S0 (co_st c) r = Ok st')
       /\ (forall i, In i (co_tasks c) -> dispatch S0 (co_st c) i <> Panic)
       /\ (finished c \/ (exists e c', cstep S0 full bl (n_workers S0 threads) c e c') \/ exists t, In t (co_flight c) /\ execute_task S0 full bl t = OutOfFuel).
Proof.
  intros T W S0 full bl B th L. destruct (init_live S0 full bl B L) as (st & Es & Hl). exists st. split; auto. intros es c Hc.
  assert (HL : live_co S0 full bl B c) by (eapply csteps_live; [exact L| |exact Hc]; split; [exact Hl|split; cbn; tauto]). destruct HL as (H1 & H2 & H3).
  assert (G : forall t, In t (co_flight c) -> execute_task S0 full bl t <> Panic /\ forall r, execute_task S0 full bl t = Ok r -> exists st', apply_task_result S0 (co_st c) r = Ok st').
  { intros t Ht. destruct (execute_live S0 full bl B L t (H2 t Ht)) as [Hs Hr]. split; auto. intros r Er. destruct (apply_live S0 full bl B L _ r H1 (Hr r Er)) as (st' & E1 & _). eauto. }
  split; auto. split; [intros i Hi; apply (dispatch_live S0 full bl B L _ i H1 (H3 i Hi))|].
  destruct (C38_terminates T W S0 full bl th st es c Es Hc) as [_ [Hf|Hgo]]; auto. right.
  assert (Hd : (exists t, In t (co_flight c) /\ execute_task S0 full bl t = OutOfFuel) \/ forall t, In t (co_flight c) -> exists r, execute_task S0 full bl t = Ok r).
  { clear - G. induction (co_flight c) as [|t fl IH]; [right; intros t []|]. destruct IH as [(u & Hu & Eu)|IH]; [intros u Hu; apply G; right; auto|left; exists u; split; [right|]; auto|].
    destruct (G t (or_introl eq_refl)) as [Hs _]. destruct (execute_task S0 full bl t) as [r| |] eqn:Ex; [|congruence|left; exists t; split; [left|]; auto].
    right. intros u [<-|Hu]; eauto. }
  destruct Hd as [Hd|Hd]; [right; exact Hd|left]. apply Hgo.
  - intros t Ht. destruct (Hd t Ht) as [r Er]. destruct (G t Ht) as [_ Ga]. destruct (Ga r Er) as [st' E1]. eauto.
  - intros k. destruct (get_cur_maxsize (sc_F32 S0) (sc_of32 S0) (sc_floor32 S0) (sc_warmup_by S0) (sel_maxsize (eo_sel (sc_E S0))) (total_cycles S0) (total_cycles S0 - k)) as [cur| |] eqn:Ec; [eauto| |].
    + exfalso. eapply (lv_warmup _ _ _ L); eauto.
    + exfalso. unfold get_cur_maxsize in Ec. cbv zeta in Ec. destruct (_ && _); [|discriminate]. unfold assert_ in Ec. destruct (3 <=? _); discriminate.
Qed.
