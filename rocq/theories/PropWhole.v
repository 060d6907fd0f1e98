(** Properties C46 (everything a search holds is well formed, feasible and consistent) and C47 (the losses a search reports are the true losses). *)
From Coq Require Import QArith.
From Verif Require Import Base BaseLemmas Node Tree NodeProofs SpanProofs Compile CompileProofs Eval EvalProofs EvalTop Deriv Utils UtilsProofs PropUtils Simplify PropSimplify Rng Registry
  PropRegistry Lit Mutation MutationProofs PropMutation Complexity ComplexitySpec ComplexityProofs PropComplexity Num Member PropHof Selection SelectionProofs PropSelection
  Conditioning Dataset PropDataset Loss PropLoss Optim PropOptim ConstOpt PropConstOpt Evolution Frames PropEvolution Search PropSearch PropIds Ready Invariant Instances.
Local Open Scope nat_scope.

(** ** Specification *)

(** What a caller of the search guarantees: the configuration is that of C42 at the maximum size; the data have the number of features the operators were set up for;
    and the size limit of the warm-up never exceeds the maximum (C31). *)
Record search_ok {T W} (S0 : search_cfg T W) (full : dataset T) (B : nat) : Prop := {
  sk_evo : evo_ok (sc_E S0) (ds_n_features full) B (sel_maxsize (eo_sel (sc_E S0)));
  sk_one : 1 <= B;
  sk_limit : forall rem cur, get_cur_maxsize (sc_F32 S0) (sc_of32 S0) (sc_floor32 S0) (sc_warmup_by S0) (sel_maxsize (eo_sel (sc_E S0))) (total_cycles S0) rem = Ok cur ->
    cur <= sel_maxsize (eo_sel (sc_E S0)) }.

(** The data are proper, and small enough for the plans' 16-bit indices. *)
Definition data_ok {T} (d : dataset T) : Prop := dataset_ok d /\ 1 <= ds_n_rows d /\ ds_n_features d <= u16_max.

(** [l] is the loss of expression [e] on data [d]: the loss function's value at the predictions of [e], or infinity if there is none. *)
Definition loss_is {T} (C : eval_cfg T) (d : dataset T) (e : expr T) (l : T) : Prop :=
  exists t, represents e t /\ (data_loss C d e t l \/ ((forall l', ~ data_loss C d e t l') /\ l = finf (ec_F C))).
Definition true_loss {T} (C : eval_cfg T) (d : dataset T) (m : member T) : Prop := loss_is C d (m_expr m) (m_loss m).

(** The simplification mutation does not change losses: it holds in exact arithmetic (below), not in floating point. *)
Definition simp_keeps {T} (E : evo_cfg T) (nf B : nat) (d : dataset T) : Prop :=
  forall e e1 ch e2 ch2 l, wf_expr E nf B e -> simplify_in_place (ec_F (eo_C E)) (ec_O (eo_C E)) (ec_D (eo_C E)) (eo_ccfg E) ev_opts e = Ok (e1, ch) ->
    compress_constants e1 = Ok (e2, ch2) -> loss_is (eo_C E) d e l -> loss_is (eo_C E) d e2 l.

(** ** Lemmas *)
Section Whole.
Context {T W : Type} (S0 : search_cfg T W) (full : dataset T) (bl : option T) (B : nat) (H : search_ok S0 full B).
Local Notation E := (sc_E S0).
Local Notation C := (eo_C (sc_E S0)).
Local Notation F := (ec_F (eo_C (sc_E S0))).
Local Notation D := (ec_D (eo_C (sc_E S0))).
Local Notation maxsize := (sel_maxsize (eo_sel (sc_E S0))).
Local Notation nf := (ds_n_features full).
Local Notation known := (reg_known (eo_reg (sc_E S0))).
Local Notation snd_ := (sound E nf B bl).

Lemma evo_at cur : cur <= maxsize -> evo_ok E nf B cur.
Proof. intros Hc. destruct (sk_evo _ _ _ H). split; auto. lia. Qed.

Lemma resample_features {V} (d : dataset T) : forall k i b (r : rng V) b' r', resample_loop k i b d r = Ok (b', r') -> ds_n_features b' = ds_n_features b.
Proof.
  induction k as [|k IH]; intros i b r b' r' Hr; cbn [resample_loop] in Hr; [injection Hr as <- _; auto|].
  apply bind_ok in Hr as ([src r1] & _ & Hr). apply bind_ok in Hr as (x & _ & Hr). apply bind_ok in Hr as (yv & _ & Hr). apply bind_ok in Hr as (y & _ & Hr).
  apply bind_ok in Hr as (w & _ & Hr). apply IH in Hr. exact Hr.
Qed.
Lemma phase_frame ps d ps' : phase S0 full ps = Ok (d, ps') -> ds_n_features d = nf /\ ps_pop ps' = ps_pop ps /\ es_ev (ps_st ps') = es_ev (ps_st ps)
  /\ (sc_batching S0 = false -> d = full).
Proof.
  unfold phase. intros Hp. destruct (sc_batching S0); [|injection Hp as <- <-; auto]. destruct (ds_n_rows full =? 0); [discriminate|]. cbv zeta in Hp.
  apply bind_ok in Hp as (b & _ & Hp). apply bind_ok in Hp as ([b' g] & Hr & Hp). injection Hp as <- <-. cbn. split; [|split; [|split]]; auto; [|discriminate].
  unfold resample_from in Hr. destruct (ds_n_rows full =? 0); [discriminate|]. apply bind_ok in Hr as (u & Ha & Hr). unfold assert_ in Ha.
  destruct (Nat.eqb_spec (ds_n_features b) nf) as [Eb|]; [|discriminate].
  do 4 (apply bind_ok in Hr as (? & _ & Hr)). apply resample_features in Hr. congruence.
Qed.

(** A task: its two halves. *)
Lemma execute_split t r : execute_task S0 full bl t = Ok r ->
  exists d1 s1 pop s d2 s2 gc k1 k2, ds_n_features d1 = nf /\ ds_n_features d2 = nf
    /\ es_ev s1 = es_ev (ps_st (tk_pop t)) /\ es_ev s2 = es_ev s
    /\ (sc_batching S0 = false -> d1 = full /\ d2 = full)
    /\ s_r_cycle E (ps_pop (tk_pop t)) s1 d1 bl (tk_cur t) (tk_stats t) = Ok (pop, s, tr_seen r, k1)
    /\ optimize_and_simplify_population E pop s2 gc full d2 bl = Ok (ps_pop (tr_pop r), ps_st (tr_pop r), ps_gc (tr_pop r), k2)
    /\ tr_evals r = k1 + k2.
Proof.
  unfold execute_task. intros Hx. apply bind_ok in Hx as ([d1 ps1] & P1 & Hx). apply bind_ok in Hx as ([[[p1 s1] h1] k1] & C1 & Hx).
  apply bind_ok in Hx as ([d2 ps2] & P2 & Hx). apply bind_ok in Hx as ([[[p2 s2] gc] k2] & C2 & Hx). apply bind_ok in Hx as (sub & _ & Hx). injection Hx as <-. cbn.
  apply phase_frame in P1 as (A1 & A2 & A3 & A4). apply phase_frame in P2 as (B1 & B2 & B3 & B4). cbn in *. rewrite A2 in C1. rewrite B2 in C2.
  exists d1, (ps_st ps1), p1, s1, d2, (ps_st ps2), (ps_gc ps2), k1, k2. auto 12.
Qed.

Lemma task_sound t r : List.length (ps_pop (tk_pop t)) = sc_population_size S0 -> Forall snd_ (ps_pop (tk_pop t)) -> ready (ds_n_rows full) (es_ev (ps_st (tk_pop t))) ->
  tk_cur t <= maxsize -> execute_task S0 full bl t = Ok r ->
  List.length (ps_pop (tr_pop r)) = sc_population_size S0 /\ Forall snd_ (ps_pop (tr_pop r)) /\ ready (ds_n_rows full) (es_ev (ps_st (tr_pop r)))
  /\ forall c m, stored (tr_seen r) c m -> snd_ m.
Proof.
  intros HL HS HR Hc Hx. apply execute_split in Hx as (d1 & s1 & pop & s & d2 & s2 & gc & k1 & k2 & N1 & N2 & V1 & V2 & _ & C1 & C2 & _).
  pose proof (s_r_cycle_ready E _ _ _ _ _ _ _ _ _ _ _ C1 ltac:(rewrite V1; exact HR)) as R1.
  destruct (C42_iteration _ _ _ _ _ _ _ _ _ _ _ _ _ _ (evo_at _ Hc) HS N1 C1) as (L1 & M1 & _ & M2 & _).
  pose proof (second_half_ready E _ _ _ _ _ _ _ _ _ _ _ C2 ltac:(rewrite V2; exact R1)) as R2.
  assert (M0 : Forall (fun m => wf_expr E nf B (m_expr m) /\ plan_fresh C nf m) pop).
  { apply Forall_forall. intros m Hm. apply M1 in Hm as [[] _]. auto. }
  destruct (C42_optimize_and_simplify _ _ _ _ _ bl _ _ _ _ _ _ _ _ _ (evo_at _ Hc) eq_refl M0 C2) as (M3 & M4 & _).
  split; [apply Forall2_length in M4; congruence|]. split; auto. split; auto. intros c m Hm. apply M2 in Hm. tauto.
Qed.

Lemma feasible_mono o c1 c2 t : c1 <= c2 -> feasible o c1 t -> feasible o c2 t.
Proof. intros Hc (H1 & H2 & H3 & H4). repeat split; auto; lia. Qed.
Lemma sound_feasible m cur : snd_ m -> cur <= maxsize -> check E (m_expr m) cur = Ok true -> within E maxsize (m_expr m).
Proof.
  intros Hm Hc Hk. destruct (so_expr _ _ _ _ _ Hm) as (t & Hr & Ht & _). exists t. split; auto. eapply feasible_mono; [exact Hc|].
  apply (check_spec E nf B cur (evo_at _ Hc) (m_expr m) t true Hr Ht Hk). reflexivity.
Qed.
Lemma new_wf e g g' : random_expr_append_ops F D (eo_reg E) nf 3 maxsize g = Ok (e, g') -> wf_expr E nf B e.
Proof.
  intros He. pose proof (sk_evo _ _ _ H) as He0. pose proof (ok_small _ _ _ _ He0) as Hs. pose proof (ok_cur _ _ _ _ He0) as Hc. pose proof (sk_one _ _ _ H) as H1.
  pose proof (reg_known_setting _ _ _ _ (ok_setting _ _ _ _ He0)) as Hset.
  destruct (C18_random_expr_append_ops T F D nf known (eo_reg E) 3 maxsize g Hset) as (e2 & g2 & x & E2 & Hd & Hx & Hz & _ & Hl & _); [lia|].
  rewrite E2 in He. injection He as -> ->. pose proof (denotes_size F e x Hd) as Hn.
  destruct (proj2 (expr_ok_denotes F D nf known e)) as (t & Hr & Ht); [eauto|]. exists t. split; auto. split; auto. lia.
Qed.
Lemma new_sound e g g' id b m m' ev ev' ok : random_expr_append_ops F D (eo_reg E) nf 3 maxsize g = Ok (e, g') ->
  from_expr C id None b e nf = Ok m -> evaluate C m full bl ev = Ok (m', ev', ok) -> snd_ m' /\ wf_expr E nf B (m_expr m) /\ plan_fresh C nf m.
Proof.
  intros He Hm Hv. apply new_wf in He. apply from_expr_frame in Hm as (_ & _ & _ & Ee & Hp).
  assert (Hw : wf_expr E nf B (m_expr m)) by (rewrite Ee; auto). assert (Hpl : plan_fresh C nf m) by (unfold plan_fresh; rewrite Ee; exact Hp).
  split; auto. eapply (evaluate_sound E nf B maxsize bl (sk_evo _ _ _ H)) in Hv; eauto. tauto.
Qed.
Lemma sound_copy m id p b : snd_ m -> snd_ (readdress m id p b).
Proof. intros [A1 A2 A3 A4]. split; auto. Qed.

(** ** C47: losses *)
Hypothesis Hdata : data_ok full.
Local Notation tru := (true_loss C full).

Lemma flatten_ops t : ops_in t <= List.length (flatten t).
Proof. rewrite flatten_length. apply ops_le_size. Qed.

Lemma evaluate_true m ev m' ev' ok : wf_expr E nf B (m_expr m) -> plan_fresh C nf m -> ready (ds_n_rows full) ev -> evaluate C m full bl ev = Ok (m', ev', ok) ->
  tru m'.
Proof.
  intros (t & Hr & Ht & Hn & Hc) Hp Hrd Hv. destruct Hdata as (Hd & Hrows & Hnf). pose proof (sk_evo _ _ _ H) as He0. pose proof (ok_small _ _ _ _ He0) as Hs.
  pose proof (ok_widths _ _ _ _ He0) as Wd. pose proof (w_umax _ _ _ Wd) as Hu. pose proof Hd as (D1 & _).
  assert (Ht' : tree_ok D nf (List.length (consts (m_expr m))) (oknown (ec_O C)) t).
  { eapply tree_ok_ops; [exact Ht|]. intros a op Ha Hi. eapply reg_known_known; [apply He0|auto|]. eapply tree_ok_known; eauto. }
  assert (Hok : ok_tree (ec_O C) D (m_expr m) (ds_x full) t) by (split; auto; rewrite D1; auto).
  unfold represents in Hr. pose proof (flatten_ops t) as Hops. rewrite <- Hr in Hops.
  assert (Hf : fits_u16 (m_expr m) (ds_x full) t) by (split; [rewrite D1; auto|split; lia]).
  destruct (evaluate_spec C m full bl ev t nf known Hd Hok Hf Hrows Hp Hrd Wd) as (ev2 & _ & [[Hnc Ev]|[Hcm Ev]]).
  - exists t. auto.
  - rewrite <- flatten_length, <- Hr. lia.
  - rewrite Ev in Hv. injection Hv as <- _ _. exists t. cbn. split; auto. right. split; auto. intros l' (Hx & _). auto.
  - destruct (lf_loss (ec_loss C) (predictions C full (m_expr m) t) (ds_y full) (ds_weights full)) as [loss| |] eqn:El; [|congruence|congruence].
    destruct (ffinite F loss) eqn:Ef; rewrite Ev in Hv; injection Hv as <- _ _; exists t; cbn; (split; [auto|]).
    + left. split; auto.
    + right. split; auto. intros l' (_ & El' & Ef'). rewrite El in El'. injection El' as <-. congruence.
Qed.

Lemma evaluate_members_true : forall ms ev ms' ev', Forall (good E nf B) ms -> ready (ds_n_rows full) ev -> evaluate_members E ms ev full bl = Ok (ms', ev') -> Forall tru ms'.
Proof.
  induction ms as [|m ms IH]; intros ev ms' ev' Hg Hr Hv; cbn in Hv; [injection Hv as <- _; auto|]. inversion Hg as [|? ? [Hw Hp] Hg']; subst.
  apply bind_ok in Hv as ([[m1 ev1] ok] & E1 & Hv). apply bind_ok in Hv as ([ms1 ev2] & E2 & Hv). injection Hv as <- _.
  constructor; [eapply evaluate_true; eauto|]. eapply IH; [exact Hg'| |exact E2]. eapply evaluate_ready; eauto.
Qed.

Lemma second_half_true n pop s gc d pop' s' gc' k : Forall (good E nf B) pop -> ready n (es_ev s) ->
  optimize_and_simplify_population E pop s gc full d bl = Ok (pop', s', gc', k) -> Forall tru pop'.
Proof.
  intros Hg Hr Ho. unfold optimize_and_simplify_population in Ho. apply bind_ok in Ho as (p1 & E1 & Ho). apply bind_ok in Ho as ([[[p2 s2] gc2] k2] & E2 & Ho).
  apply bind_ok in Ho as ([p3 ev3] & E3 & Ho). injection Ho as <- _ _ _.
  assert (G1 : Forall (good E nf B) p1).
  { destruct (eo_simplify E); [eapply (simplify_all E nf B maxsize (sk_evo _ _ _ H)); eauto|]. injection E1 as <-. exact Hg. }
  assert (G2 : Forall (good E nf B) p2 /\ mat_ok (ev_scratch (es_ev s2))).
  { destruct (oc_enabled (eo_opt E) && _).
    - split; [eapply (optimize_all E nf B bl); eauto|]. eapply optimize_members_ready in E2; [apply E2|]. cbn. apply ensure_ready. apply Hr.
    - injection E2 as <- <- _ _. split; auto. apply Hr. }
  destruct G2 as [G2 R2]. eapply evaluate_members_true; [exact G2| |exact E3]. apply ensure_ready. exact R2.
Qed.

(** Without batching, losses stay true through the cycles when the simplification mutation keeps them. *)
Hypothesis Hsimp : simp_keeps E nf B full.
Local Notation tsound m := (sound E nf B bl m /\ true_loss C full m).

Lemma apply_imm c g ev m e d temp cur e1 mu k g' ev' : apply E c g ev m e d bl temp cur = Ok ((e1, mu, k, true), g', ev') ->
  exists ch, simplify_in_place F (ec_O C) D (eo_ccfg E) ev_opts e = Ok (e1, ch).
Proof.
  intros Ha. destruct c; cbn [apply] in Ha; cbv zeta in Ha;
    try (unfold in_place in Ha; apply bind_ok in Ha as ([[b0 x0] y0] & _ & Ha); discriminate).
  - apply bind_ok in Ha as ([e2 ch] & Es & Ha). injection Ha as <- _ _ _ _. eauto.
  - apply bind_ok in Ha as ([tg g1] & _ & Ha). apply bind_ok in Ha as ([e2 g2] & _ & Ha). discriminate.
  - discriminate.
  - apply bind_ok in Ha as (tmp & _ & Ha). apply bind_ok in Ha as ([[[[[[g1 m1] ev1] gc1] nb1] imp] k1] & _ & Ha). discriminate.
Qed.
Lemma attempts_imm c m d temp cur : forall n g ev evals tree k g' ev', attempts E n c g ev m d bl temp cur evals = Ok (Some (tree, true), k, g', ev') ->
  exists e1 ch ch2, simplify_in_place F (ec_O C) D (eo_ccfg E) ev_opts (m_expr m) = Ok (e1, ch) /\ compress_constants e1 = Ok (tree, ch2).
Proof.
  induction n as [|n IH]; intros g ev evals tree k g' ev' Ha; cbn [attempts] in Ha; [discriminate|].
  apply bind_ok in Ha as ([[[[[e1 mu] k1] im] g1] ev1] & E1 & Ha). destruct mu; cbn [negb] in Ha; [|eapply IH; eauto].
  apply bind_ok in Ha as ([tr ch2] & Ec & Ha). apply bind_ok in Ha as (ok & _ & Ha). destruct ok; [|eapply IH; eauto].
  injection Ha as <- -> _ _ _. apply apply_imm in E1 as (ch & E1). eauto.
Qed.

Lemma copy_parent_true id b m m' : true_loss C full m -> copy_parent E id b m nf = Ok m' -> true_loss C full m'.
Proof.
  intros Ht Hc. unfold copy_parent in Hc. apply bind_ok in Hc as (baby & Hb & Hc). injection Hc as <-. apply from_expr_frame in Hb as (_ & _ & _ & I4 & _).
  unfold true_loss in *. cbn. rewrite I4. exact Ht.
Qed.
Lemma next_generation_true cur s m temp st baby acc k s' : cur <= maxsize -> tsound m -> ready (ds_n_rows full) (es_ev s) ->
  next_generation E s m full bl temp cur st = Ok (baby, acc, k, s') -> true_loss C full baby.
Proof.
  intros Hcur [Hm Ht] Hr Hng. unfold next_generation in Hng. cbv zeta in Hng.
  apply bind_ok in Hng as ([c g] & _ & Hng). apply bind_ok in Hng as ([[[found evals] g1] ev1] & Ha & Hng).
  pose proof (attempts_ready E _ _ _ _ _ _ _ _ _ _ _ _ _ _ _ Ha Hr) as Hr1.
  destruct found as [[tree imm]|].
  - pose proof Ha as Ha0. apply (attempts_spec E nf B cur bl (evo_at _ Hcur)) in Ha as [Hwf _]; auto; [|apply Hm]. destruct imm.
    + apply bind_ok in Hng as (b1 & Hb1 & Hng). apply bind_ok in Hng as (b2 & Hb2 & Hng). apply bind_ok in Hng as (cx & _ & Hng). injection Hng as <- _ _ _.
      apply from_expr_frame in Hb1 as (_ & _ & _ & I4 & _). unfold rebuild_plan in Hb2. apply bind_ok in Hb2 as (p & _ & Hb2). injection Hb2 as <-.
      unfold true_loss. cbn. rewrite I4. apply attempts_imm in Ha0 as (e1 & ch & ch2 & H1 & H2). exact (Hsimp _ _ _ _ _ _ (so_expr _ _ _ _ _ Hm) H1 H2 Ht).
    + apply bind_ok in Hng as (b1 & Hb1 & Hng). apply from_expr_frame in Hb1 as (_ & _ & _ & I4 & I5).
      apply bind_ok in Hng as ([[b2 ev2] ok] & He & Hng). apply evaluate_true in He; auto; [|rewrite I4; auto|unfold plan_fresh; rewrite I4; exact I5].
      destruct (_ || _).
      * apply bind_ok in Hng as (rj & Hrj & Hng). injection Hng as <- _ _ _. exact (copy_parent_true _ _ _ _ Ht Hrj).
      * apply bind_ok in Hng as (prob & _ & Hng). destruct (rng_real g1) as [u g2]. destruct (fltb F prob u).
        -- apply bind_ok in Hng as (rj & Hrj & Hng). injection Hng as <- _ _ _. exact (copy_parent_true _ _ _ _ Ht Hrj).
        -- injection Hng as <- _ _ _. exact He.
  - apply bind_ok in Hng as (rj & Hrj & Hng). injection Hng as <- _ _ _. exact (copy_parent_true _ _ _ _ Ht Hrj).
Qed.
Lemma crossover_true cur m1 m2 : cur <= maxsize -> tsound m1 -> tsound m2 -> forall n s b1 b2 acc k s', ready (ds_n_rows full) (es_ev s) ->
  crossover_loop E n s m1 m2 full bl cur = Ok (b1, b2, acc, k, s') -> true_loss C full b1 /\ true_loss C full b2.
Proof.
  intros Hcur [S1 T1] [S2 T2]. induction n as [|n IH]; intros s b1 b2 acc k s' Hr Hc; [cbn in Hc; injection Hc as <- <- _ _ _; auto|].
  pose proof (crossover_spec E nf B cur bl (evo_at _ Hcur) m1 m2 full S1 S2 eq_refl _ _ _ _ _ _ _ Hc) as (B1 & B2 & _).
  cbn [crossover_loop] in Hc.
  apply bind_ok in Hc as ([[c1 c2] g] & Hx & Hc). apply bind_ok in Hc as (ok1 & Hk1 & Hc). apply bind_ok in Hc as (ok & Hk & Hc).
  destruct ok; [|eapply IH; [|exact Hc]; exact Hr]. cbv zeta in Hc.
  apply bind_ok in Hc as (y1 & Hy1 & Hc). apply bind_ok in Hc as (y2 & Hy2 & Hc). apply bind_ok in Hc as ([[z1 ev1] o1] & Hz1 & Hc).
  apply bind_ok in Hc as ([[z2 ev2] o2] & Hz2 & Hc). injection Hc as <- <- <- _ <-.
  apply from_expr_frame in Hy1 as (_ & _ & _ & I4 & I5). apply from_expr_frame in Hy2 as (_ & _ & _ & J4 & J5).
  pose proof (evaluate_frame _ _ _ _ _ _ _ _ Hz1) as (a1 & a2 & a3 & Ez1 & _). pose proof (evaluate_frame _ _ _ _ _ _ _ _ Hz2) as (a4 & a5 & a6 & Ez2 & _).
  pose proof (evaluate_ready C _ _ _ _ _ _ _ _ Hz1 Hr) as Hr1.
  split; [eapply evaluate_true; [| | |exact Hz1]|eapply evaluate_true; [| | |exact Hz2]]; auto.
  - destruct B1 as [B1 _ _ _]. rewrite Ez1 in B1. exact B1.
  - unfold plan_fresh. rewrite I4. exact I5.
  - destruct B2 as [B2 _ _ _]. rewrite Ez2 in B2. exact B2.
  - unfold plan_fresh. rewrite J4. exact J5.
Qed.
Lemma evol_step_true cur pop s temp st pop' s' k : cur <= maxsize -> Forall (fun m => tsound m) pop -> ready (ds_n_rows full) (es_ev s) ->
  evol_step E pop s full bl temp cur st = Ok (pop', s', k) -> Forall (fun m => tsound m) pop'.
Proof.
  intros Hcur Hp Hr Hs. pose proof Hs as Hs0.
  assert (Hsnd : Forall (sound E nf B bl) pop) by (eapply Forall_impl; [|exact Hp]; cbn; tauto).
  apply (evol_step_spec E nf B cur bl (evo_at _ Hcur)) in Hs0; auto. apply each_new_sound in Hs0; auto.
  cut (each_new (true_loss C full) pop pop').
  { intros [_ Hn]. rewrite Forall_forall in *. intros m Hm. split; auto. destruct (Hn m Hm) as [Hi|]; auto. apply Hp; auto. }
  unfold evol_step in Hs. destruct (rng_real (es_rng s)) as [u g]. rewrite Forall_forall in Hp.
  destruct (fgtb F u (eo_crossover_prob E)).
  - apply bind_ok in Hs as ([a g1] & Ht & Hs). apply tournament_in in Ht. apply bind_ok in Hs as ([[[b acc] k1] s1] & Hn & Hs).
    apply next_generation_true in Hn; auto. destruct (negb acc && eo_skip_failures E); [injection Hs as <- _ _; apply each_new_refl|].
    apply bind_ok in Hs as (p1 & Hrp & Hs). injection Hs as <- _ _. eapply replace_oldest_new; eauto.
  - apply bind_ok in Hs as ([a1 g1] & Ht1 & Hs). apply tournament_in in Ht1. apply bind_ok in Hs as ([a2 g2] & Ht2 & Hs). apply tournament_in in Ht2.
    apply bind_ok in Hs as ([[[[b1 b2] acc] k1] s1] & Hn & Hs). apply crossover_true in Hn as [Hb1 Hb2]; auto.
    destruct (negb acc && eo_skip_failures E); [injection Hs as <- _ _; apply each_new_refl|].
    apply bind_ok in Hs as (p1 & Hrp & Hs). injection Hs as <- _ _. eapply replace_two_new; eauto.
Qed.
Lemma evol_steps_true cur temp st : cur <= maxsize -> forall n pop s ev pop' s' k, Forall (fun m => tsound m) pop -> ready (ds_n_rows full) (es_ev s) ->
  evol_steps E n pop s full bl temp cur st ev = Ok (pop', s', k) -> Forall (fun m => tsound m) pop'.
Proof.
  intros Hcur. induction n as [|n IH]; intros pop s ev pop' s' k Hp Hr Hs; cbn in Hs; [injection Hs as <- _ _; auto|].
  apply bind_ok in Hs as ([[p1 s1] k1] & H1 & Hs). pose proof (evol_step_ready E _ _ _ _ _ _ _ _ _ _ _ H1 Hr) as Hr1. apply evol_step_true in H1; auto. eapply IH; [| |exact Hs]; auto.
Qed.
Lemma update_hof_all (P : member T -> Prop) cur : forall pop h h', (forall c m, stored h c m -> P m) -> Forall P pop -> update_hof E h pop cur = Ok h' ->
  forall c m, stored h' c m -> P m.
Proof.
  unfold update_hof, update_from_members. induction pop as [|x pop IH]; intros h h' Hh Hp Hu; cbn in Hu; [injection Hu as <-; auto|].
  inversion Hp; subst. apply bind_ok in Hu as (h1 & H1 & Hu). eapply IH; [|eauto|exact Hu]. intros c m Hm. apply (consider_cases S0) in H1 as [->|(_ & _ & ->)]; [eauto|].
  unfold stored in Hm. apply nth_error_upd_cases in Hm as [[_ E0]|[_ Hm]]; [injection E0 as ->; auto|eapply Hh; exact Hm].
Qed.
Lemma sr_cycles_true cur st nn : cur <= maxsize -> forall idx pop s best ev pop' s' best' k, Forall (fun m => tsound m) pop -> ready (ds_n_rows full) (es_ev s) ->
  (forall c m, stored best c m -> tsound m) -> sr_cycles E idx nn pop s best full bl cur st ev = Ok (pop', s', best', k) ->
  forall c m, stored best' c m -> tsound m.
Proof.
  intros Hcur. induction idx as [|i idx IH]; intros pop s best ev pop' s' best' k Hp Hr Hb Hs; cbn in Hs; [injection Hs as _ _ <- _; auto|].
  apply bind_ok in Hs as ([[p1 s1] k1] & H1 & Hs). apply bind_ok in Hs as (b1 & Hu & Hs). unfold reg_evol_cycle in H1.
  pose proof (evol_steps_ready E _ _ _ _ _ _ _ _ _ _ _ _ _ H1 Hr) as Hr1. apply evol_steps_true in H1; auto. eapply IH; [| | |exact Hs]; auto.
  eapply (update_hof_all (fun m => tsound m)); eauto.
Qed.
Lemma s_r_cycle_true cur pop s st pop' s' best k : cur <= maxsize -> Forall (fun m => tsound m) pop -> ready (ds_n_rows full) (es_ev s) ->
  s_r_cycle E pop s full bl cur st = Ok (pop', s', best, k) -> forall c m, stored best c m -> tsound m.
Proof.
  unfold s_r_cycle. intros Hcur Hp Hr Hs. apply bind_ok in Hs as (b & Hb & Hs). eapply sr_cycles_true; [exact Hcur|exact Hp|exact Hr| |exact Hs].
  eapply (update_hof_all (fun m => tsound m)); [|exact Hp|exact Hb]. intros c m Hst. unfold stored, hof_new, fill in Hst. apply nth_error_In, repeat_spec in Hst. discriminate.
Qed.
End Whole.

(** ** The invariant scheme, three times *)
Section Use.
Context {T W : Type} (S0 : search_cfg T W) (full : dataset T) (bl : option T) (B : nat) (H : search_ok S0 full B).
Local Notation E := (sc_E S0).
Local Notation C := (eo_C (sc_E S0)).
Local Notation F := (ec_F (eo_C (sc_E S0))).
Local Notation maxsize := (sel_maxsize (eo_sel (sc_E S0))).
Local Notation nf := (ds_n_features full).
Local Notation P0 := (sound E nf B bl).
Local Notation P1 := (fun m => sound E nf B bl m /\ true_loss C full m).
Local Notation Pf := (within E maxsize).

(** Where the members are: (populations, best and best of each population, hall of fame). *)
Definition where_ (Pp Pd Po : member T -> Prop) (c : @coord T) : Prop :=
  (forall i ps, located c i ps -> List.length (ps_pop ps) = sc_population_size S0 /\ Forall Pp (ps_pop ps))
  /\ Pd (ss_best (co_st c)) /\ (forall ms m, In ms (ss_subs (co_st c)) -> In m ms -> Pd m)
  /\ List.length (ss_hall (co_st c)) = maxsize + 1
  /\ (forall k m, stored (ss_hall (co_st c)) k m -> m_complexity m = k /\ 1 <= k <= maxsize /\ Po m /\ Pf (m_expr m)).

Lemma inv_where Pp Pd Po c : co_inv S0 full Pp Pd Po Pf c -> where_ Pp Pd Po c.
Proof.
  intros [[I1 I2 [I3 I4] I5] I6]. split; [|split; [|split; [|split]]]; auto.
  - intros i ps [Hl|(t & Ht & _ & <-)].
    + destruct (I1 ps (nth_error_In _ _ Hl)) as (? & ? & _). auto.
    + destruct (I6 t Ht) as [(? & ? & _) _]. auto.
  - intros ms m Hms Hm. rewrite Forall_forall in I2. specialize (I2 ms Hms). rewrite Forall_forall in I2. auto.
Qed.

(** Any of the three, from the start of the search on. *)
Lemma use_inv (Pp Pd Po : member T -> Prop) :
  (forall m, Pd m -> Pp m) -> (forall m, Pd m -> Po m) -> (sc_hof_migration S0 = true -> forall m, Po m -> Pp m) ->
  (forall m id p b, Pp m -> Pp (readdress m id p b)) -> (forall m, Po m -> P0 m) ->
  (forall t r, pop_inv S0 full Pp (tk_pop t) -> tk_cur t <= maxsize -> execute_task S0 full bl t = Ok r ->
     pop_inv S0 full Pp (tr_pop r) /\ Forall Pd (ps_pop (tr_pop r)) /\ forall c m, stored (tr_seen r) c m -> Po m) ->
  (forall m m' ev ev' ok, wf_expr E nf B (m_expr m) -> plan_fresh C nf m -> ready (ds_n_rows full) ev -> evaluate C m full bl ev = Ok (m', ev', ok) -> P0 m' -> Pd m') ->
  (forall st, init_search S0 full bl = Ok st -> st_inv S0 full Pp Pd Po Pf st)
  /\ (forall nw c1 es c2, co_inv S0 full Pp Pd Po Pf c1 -> csteps S0 full bl nw c1 es c2 -> co_inv S0 full Pp Pd Po Pf c2)
  /\ (forall st l st', st_inv S0 full Pp Pd Po Pf st -> advances S0 full bl st l st' -> st_inv S0 full Pp Pd Po Pf st').
Proof.
  intros A1 A2 A3 A4 A5 A6 A7.
  assert (Hfe : forall m cur, Po m -> cur <= maxsize -> check E (m_expr m) cur = Ok true -> Pf (m_expr m)) by (intros m cur Hm; eapply sound_feasible; eauto).
  assert (Hli := sk_limit _ _ _ H). split; [|split].
  - intros st. apply init_inv; auto. intros e g g' id b m m' ev ev' ok He Hm Hr Hv.
    destruct (new_sound S0 full bl B H _ _ _ _ _ _ _ _ _ _ He Hm Hv) as (X1 & X2 & X3). eapply A7; eauto.
  - intros nw c1 es c2 H1 H2. eapply csteps_inv; [..|exact H1|exact H2]; auto.
  - intros st l st' H1 H2. eapply advances_inv; [..|exact H1|exact H2]; auto.
Qed.
Lemma use_where (Pp Pd Po : member T -> Prop) : 
  ((forall st, init_search S0 full bl = Ok st -> st_inv S0 full Pp Pd Po Pf st)
   /\ (forall nw c1 es c2, co_inv S0 full Pp Pd Po Pf c1 -> csteps S0 full bl nw c1 es c2 -> co_inv S0 full Pp Pd Po Pf c2)
   /\ (forall st l st', st_inv S0 full Pp Pd Po Pf st -> advances S0 full bl st l st' -> st_inv S0 full Pp Pd Po Pf st')) ->
  (forall nw st0 es c, init_search S0 full bl = Ok st0 -> csteps S0 full bl nw (parallel_start S0 st0) es c -> where_ Pp Pd Po c)
  /\ (forall st0 l st, init_search S0 full bl = Ok st0 -> advances S0 full bl st0 l st -> where_ Pp Pd Po (mkCoord st 0 [] [])).
Proof.
  intros (U1 & U2 & U3). split.
  - intros nw st0 es c Hi Hc. apply inv_where. eapply U2; [|exact Hc]. split; [apply U1; auto|]. intros t [].
  - intros st0 l st Hi Ha. apply inv_where. split; [eapply U3; [|exact Ha]; auto|]. intros t [].
Qed.

Lemma use_sound :
  (forall nw st0 es c, init_search S0 full bl = Ok st0 -> csteps S0 full bl nw (parallel_start S0 st0) es c -> where_ P0 P0 P0 c)
  /\ (forall st0 l st, init_search S0 full bl = Ok st0 -> advances S0 full bl st0 l st -> where_ P0 P0 P0 (mkCoord st 0 [] [])).
Proof.
  apply use_where, use_inv; auto.
  - intros m id p b. apply sound_copy; auto.
  - intros t r (L & S1 & R) Hc Hx. destruct (task_sound S0 full bl B H t r L S1 R Hc Hx) as (? & ? & ? & ?). split; [split; [|split]|split]; auto.
Qed.
Hypothesis Hdata : data_ok full.

(** What a task delivers has true losses, whatever it started from. *)
Lemma task_true t r : List.length (ps_pop (tk_pop t)) = sc_population_size S0 -> Forall P0 (ps_pop (tk_pop t)) -> ready (ds_n_rows full) (es_ev (ps_st (tk_pop t))) ->
  tk_cur t <= maxsize -> execute_task S0 full bl t = Ok r -> Forall P1 (ps_pop (tr_pop r)).
Proof.
  intros L S1 R Hc Hx. destruct (task_sound S0 full bl B H t r L S1 R Hc Hx) as (_ & S2 & _ & _).
  apply execute_split in Hx as (d1 & s1 & pop & s & d2 & s2 & gc & k1 & k2 & N1 & N2 & V1 & V2 & _ & C1 & C2 & _).
  pose proof (s_r_cycle_ready E _ _ _ _ _ _ _ _ _ _ _ C1 ltac:(rewrite V1; exact R)) as R1.
  destruct (C42_iteration _ _ _ _ _ _ _ _ _ _ _ _ _ _ (evo_at S0 full B H _ Hc) S1 N1 C1) as (_ & M1 & _).
  apply (second_half_true S0 full bl B H Hdata (ds_n_rows full)) in C2.
  - rewrite Forall_forall in *. auto.
  - apply Forall_forall. intros m Hm. apply M1 in Hm as [[] _]. split; auto.
  - rewrite V2. exact R1.
Qed.

Lemma use_delivered :
  (forall nw st0 es c, init_search S0 full bl = Ok st0 -> csteps S0 full bl nw (parallel_start S0 st0) es c -> where_ P0 P1 P0 c)
  /\ (forall st0 l st, init_search S0 full bl = Ok st0 -> advances S0 full bl st0 l st -> where_ P0 P1 P0 (mkCoord st 0 [] [])).
Proof.
  apply use_where, use_inv; auto; try tauto.
  - intros m id p b. apply sound_copy; auto.
  - intros t r (L & S1 & R) Hc Hx. destruct (task_sound S0 full bl B H t r L S1 R Hc Hx) as (? & ? & ? & ?). split; [split; [|split]|split]; auto. eapply task_true; eauto.
  - intros m m' ev ev' ok Hw Hp Hr Hv Hs. split; auto. eapply (evaluate_true S0 full bl B H Hdata); eauto.
Qed.
Lemma use_populations : sc_hof_migration S0 = false ->
  (forall nw st0 es c, init_search S0 full bl = Ok st0 -> csteps S0 full bl nw (parallel_start S0 st0) es c -> where_ P1 P1 P0 c)
  /\ (forall st0 l st, init_search S0 full bl = Ok st0 -> advances S0 full bl st0 l st -> where_ P1 P1 P0 (mkCoord st 0 [] [])).
Proof.
  intros Hm. apply use_where, use_inv; auto; try tauto; try congruence.
  - intros m id p b [S1 T1]. split; [apply sound_copy; auto|exact T1].
  - intros t r (L & S1 & R) Hc Hx. assert (S2 : Forall P0 (ps_pop (tk_pop t))) by (eapply Forall_impl; [|exact S1]; cbn; tauto).
    destruct (task_sound S0 full bl B H t r L S2 R Hc Hx) as (? & ? & ? & ?). pose proof (task_true t r L S2 R Hc Hx). split; [split; [|split]|split]; auto.
  - intros m m' ev ev' ok Hw Hp Hr Hv Hs. split; auto. eapply (evaluate_true S0 full bl B H Hdata); eauto.
Qed.
Lemma use_hall : sc_batching S0 = false -> simp_keeps E nf B full ->
  (forall nw st0 es c, init_search S0 full bl = Ok st0 -> csteps S0 full bl nw (parallel_start S0 st0) es c -> where_ P1 P1 P1 c)
  /\ (forall st0 l st, init_search S0 full bl = Ok st0 -> advances S0 full bl st0 l st -> where_ P1 P1 P1 (mkCoord st 0 [] [])).
Proof.
  intros Hb Hk. apply use_where, use_inv; auto; try tauto.
  - intros m id p b [S1 T1]. split; [apply sound_copy; auto|exact T1].
  - intros t r (L & S1 & R) Hc Hx. assert (S2 : Forall P0 (ps_pop (tk_pop t))) by (eapply Forall_impl; [|exact S1]; cbn; tauto).
    destruct (task_sound S0 full bl B H t r L S2 R Hc Hx) as (? & ? & ? & ?). pose proof (task_true t r L S2 R Hc Hx). split; [split; [|split]; auto|]. split; auto.
    apply execute_split in Hx as (d1 & s1 & pop & s & d2 & s2 & gc & k1 & k2 & N1 & N2 & V1 & V2 & Hnb & C1 & C2 & _). destruct (Hnb Hb) as [-> ->].
    eapply (s_r_cycle_true S0 full bl B H Hdata Hk); [exact Hc|exact S1| |exact C1]. rewrite V1. exact R.
  - intros m m' ev ev' ok Hw Hp Hr Hv Hs. split; auto. eapply (evaluate_true S0 full bl B H Hdata); eauto.
Qed.
End Use.

(** ** C46 *)

(** Parallel search, any number of workers and any arrival order of results, at every moment: each population has its configured size and, like the best members of
    each population and the best overall, consists of sound members; slot [k] of the hall of fame holds at most one member, sound, of complexity [k], and within all
    constraints at the maximum size. *)
Theorem C46_parallel_search_sound : forall (T W : Type) (S0 : search_cfg T W) full bl B threads st0 es c,
  search_ok S0 full B -> init_search S0 full bl = Ok st0 ->
  csteps S0 full bl (n_workers S0 threads) (parallel_start S0 st0) es c ->
  let ok := sound (sc_E S0) (ds_n_features full) B bl in let maxsize := sel_maxsize (eo_sel (sc_E S0)) in
  (forall i ps, located c i ps -> List.length (ps_pop ps) = sc_population_size S0 /\ Forall ok (ps_pop ps))
  /\ ok (ss_best (co_st c)) /\ (forall ms m, In ms (ss_subs (co_st c)) -> In m ms -> ok m)
  /\ List.length (ss_hall (co_st c)) = maxsize + 1
  /\ (forall k m, stored (ss_hall (co_st c)) k m -> m_complexity m = k /\ 1 <= k <= maxsize /\ ok m /\ within (sc_E S0) maxsize (m_expr m)).
Proof. intros T W S0 full bl B th st0 es c H Hi Hc. exact (proj1 (use_sound S0 full bl B H) _ _ _ _ Hi Hc). Qed.

(** The stepwise engine, after any steps. *)
Theorem C46_engine_sound : forall (T W : Type) (S0 : search_cfg T W) full B en0 ns en ks,
  search_ok S0 full B -> engine_new S0 full = Ok en0 -> steps S0 en0 ns = Ok (en, ks) ->
  let ok := sound (sc_E S0) (ds_n_features full) B (en_bl en0) in let maxsize := sel_maxsize (eo_sel (sc_E S0)) in
  (forall i ps, nth_error (ss_pops (en_st en)) i = Some (Some ps) -> List.length (ps_pop ps) = sc_population_size S0 /\ Forall ok (ps_pop ps))
  /\ ok (ss_best (en_st en)) /\ (forall ms m, In ms (ss_subs (en_st en)) -> In m ms -> ok m)
  /\ List.length (ss_hall (en_st en)) = maxsize + 1
  /\ (forall k m, stored (ss_hall (en_st en)) k m -> m_complexity m = k /\ 1 <= k <= maxsize /\ ok m /\ within (sc_E S0) maxsize (m_expr m)).
Proof.
  intros T W S0 full B en0 ns en ks H Hn Hs. destruct (C37_cycles T W S0 full en0 ns en ks Hn Hs) as (l & Ha & _).
  unfold engine_new in Hn. apply bind_ok in Hn as (bl & _ & Hn). apply bind_ok in Hn as (st & Hi & Hn). injection Hn as <-. cbn [en_st en_bl] in *.
  destruct (proj2 (use_sound S0 full bl B H) _ _ _ Hi Ha) as (U1 & U2 & U3 & U4 & U5). cbn [co_st] in *. cbv zeta. split; [|auto]. intros i ps Hp. apply (U1 i). left. exact Hp.
Qed.

(** So every equation of the Pareto front is sound and feasible. *)
Theorem C46_front_sound : forall (T W : Type) (S0 : search_cfg T W) full bl B threads st0 es c m,
  search_ok S0 full B -> init_search S0 full bl = Ok st0 ->
  csteps S0 full bl (n_workers S0 threads) (parallel_start S0 st0) es c ->
  In m (pareto_front (ec_F (eo_C (sc_E S0))) (ss_hall (co_st c))) ->
  sound (sc_E S0) (ds_n_features full) B bl m /\ within (sc_E S0) (sel_maxsize (eo_sel (sc_E S0))) (m_expr m)
  /\ 1 <= m_complexity m <= sel_maxsize (eo_sel (sc_E S0)).
Proof.
  intros T W S0 full bl B th st0 es c m H Hi Hc Hm. destruct (C46_parallel_search_sound T W S0 full bl B th st0 es c H Hi Hc) as (_ & _ & _ & _ & U).
  unfold pareto_front in Hm. apply (pareto_in S0) in Hm. apply In_nth_error in Hm as (i & Hm). apply hof_members_nth in Hm as (k & Hm & _). destruct (U k m Hm) as (<- & ? & ? & ?). auto.
Qed.

(** ** C47 *)

(** The best member and the best members of every population (the migrants) always carry their true loss on the full data, also when mini-batches are used; so do all
    populations if members do not migrate from the hall of fame. *)
Theorem C47_best_loss_is_true : forall (T W : Type) (S0 : search_cfg T W) full bl B threads st0 es c,
  search_ok S0 full B -> data_ok full -> init_search S0 full bl = Ok st0 ->
  csteps S0 full bl (n_workers S0 threads) (parallel_start S0 st0) es c ->
  let tr m := loss_is (eo_C (sc_E S0)) full (m_expr m) (m_loss m) in
  tr (ss_best (co_st c)) /\ (forall ms m, In ms (ss_subs (co_st c)) -> In m ms -> tr m)
  /\ (sc_hof_migration S0 = false -> forall i ps, located c i ps -> Forall tr (ps_pop ps)).
Proof.
  intros T W S0 full bl B th st0 es c H Hd Hi Hc. destruct (proj1 (use_delivered S0 full bl B H Hd) _ _ _ _ Hi Hc) as (_ & U2 & U3 & _).
  split; [apply U2|]. split; [intros ms m Hms Hm; apply (U3 ms m Hms Hm)|]. intros Hm i ps Hl.
  destruct (proj1 (use_populations S0 full bl B H Hd Hm) _ _ _ _ Hi Hc) as (U1 & _). destruct (U1 i ps Hl) as [_ Hf]. eapply Forall_impl; [|exact Hf]. cbn. tauto.
Qed.
Theorem C47_engine_best_loss_is_true : forall (T W : Type) (S0 : search_cfg T W) full B en0 ns en ks,
  search_ok S0 full B -> data_ok full -> engine_new S0 full = Ok en0 -> steps S0 en0 ns = Ok (en, ks) ->
  loss_is (eo_C (sc_E S0)) full (m_expr (ss_best (en_st en))) (m_loss (ss_best (en_st en))).
Proof.
  intros T W S0 full B en0 ns en ks H Hd Hn Hs. destruct (C37_cycles T W S0 full en0 ns en ks Hn Hs) as (l & Ha & _).
  unfold engine_new in Hn. apply bind_ok in Hn as (bl & _ & Hn). apply bind_ok in Hn as (st & Hi & Hn). injection Hn as <-. cbn [en_st en_bl] in *.
  destruct (proj2 (use_delivered S0 full bl B H Hd) _ _ _ Hi Ha) as (_ & U2 & _). apply U2.
Qed.

(** Without mini-batches, and if simplification keeps losses, every member anywhere carries its true loss, those in the hall of fame and the Pareto front included. *)
Theorem C47_all_losses_true : forall (T W : Type) (S0 : search_cfg T W) full bl B threads st0 es c,
  search_ok S0 full B -> data_ok full -> sc_batching S0 = false -> simp_keeps (sc_E S0) (ds_n_features full) B full ->
  init_search S0 full bl = Ok st0 -> csteps S0 full bl (n_workers S0 threads) (parallel_start S0 st0) es c ->
  let tr m := loss_is (eo_C (sc_E S0)) full (m_expr m) (m_loss m) in
  (forall i ps, located c i ps -> Forall tr (ps_pop ps))
  /\ (forall k m, stored (ss_hall (co_st c)) k m -> tr m)
  /\ (forall m, In m (pareto_front (ec_F (eo_C (sc_E S0))) (ss_hall (co_st c))) -> tr m).
Proof.
  intros T W S0 full bl B th st0 es c H Hd Hb Hk Hi Hc. destruct (proj1 (use_hall S0 full bl B H Hd Hb Hk) _ _ _ _ Hi Hc) as (U1 & _ & _ & _ & U5). split; [|split].
  - intros i ps Hl. destruct (U1 i ps Hl) as [_ Hf]. eapply Forall_impl; [|exact Hf]. cbn. tauto.
  - intros k m Hm. apply (U5 k m Hm).
  - intros m Hm. unfold pareto_front in Hm. apply (pareto_in S0) in Hm. apply In_nth_error in Hm as (i & Hm). apply hof_members_nth in Hm as (k & Hm & _). apply (U5 k m Hm).
Qed.

(** In exact arithmetic simplification keeps losses. *)
Lemma tfinite_all {T} (F : FloatOps T) O var cst t : (forall x, ffinite F x = true) -> tfinite F O var cst t = true.
Proof.
  intros Ha. induction t as [f|i|op cs IH] using tree_ind'; cbn [tfinite]; auto. rewrite Ha, andb_true_r || rewrite Ha. apply forallb_forall. intros c Hc.
  rewrite Forall_forall in IH. auto.
Qed.
Theorem C47_exact_simplification_keeps : forall (T : Type) (E : evo_cfg T) nf B cur d,
  evo_ok E nf B cur -> exact_arith (ec_F (eo_C E)) (ec_O (eo_C E)) (eo_ccfg E) -> (forall x, ffinite (ec_F (eo_C E)) x = true) ->
  (forall a k, registered (eo_reg E) a k -> sub_id (eo_ccfg E) = Some k -> a = 2) -> simp_keeps E nf B d.
Proof.
  intros T E nf B cur d H HX Ha Hsub e e1 ch e2 ch2 l (t & Hr & Ht & Hn & Hc) E1 E2 Hl. pose proof (ok_small _ _ _ _ H) as Hs.
  assert (Ht' : tree_ok (ec_D (eo_C E)) nf (List.length (consts e)) (oknown (ec_O (eo_C E))) t).
  { eapply tree_ok_ops; [exact Ht|]. intros a op Hao Hi. eapply reg_known_known; [apply H|auto|]. eapply tree_ok_known; eauto. }
  assert (Hsz : tsize t <= u16_max) by (unfold represents in Hr; rewrite <- flatten_length, <- Hr; lia).
  assert (Hmb : minus_is_binary (eo_ccfg E) e).
  { intros a k Hin Hk. apply (Hsub a k); auto. apply reg_known_spec. unfold represents in Hr. rewrite Hr in Hin. eapply tree_ok_known; eauto. }
  destruct (C14_simplify_preserves_value T (ec_F (eo_C E)) (ec_O (eo_C E)) _ nf (eo_ccfg E) ev_opts e t (fnan (ec_F (eo_C E))) Hr Ht' Hsz HX Hmb) as (f1 & c1 & t1 & X1 & R1 & V1).
  rewrite E1 in X1. injection X1 as <- <-.
  destruct (C15_simplify_well_formed T (ec_F (eo_C E)) (ec_O (eo_C E)) _ nf (eo_ccfg E) ev_opts e t Hr Ht' Hsz) as (f1 & c1 & t1' & X1 & R1' & K1 & L1 & _).
  rewrite E1 in X1. injection X1 as <- <-. unfold represents in R1, R1'. assert (t1' = t1) by (apply flatten_inj; congruence). subst t1'.
  destruct (C10_compress_constants T e1 t1 _ nf _ R1 K1) as (f2 & c2 & t2 & X2 & R2 & _ & _ & V2 & _); [rewrite first_uses_le; lia|].
  rewrite E2 in X2. injection X2 as <- <-.
  assert (Hpred : predictions (eo_C E) d e2 t2 = predictions (eo_C E) d e t).
  { unfold predictions, value_at, EvalTop.const_at. apply map_ext. intros r. rewrite V2. apply V1. }
  assert (Hcomp : forall e' t', completes (eo_C E) d e' t') by (intros e' t'; split; [intros r _; apply tfinite_all; auto|auto]).
  destruct Hl as (t0 & R0 & Hl). unfold represents in R0, Hr. assert (t0 = t) by (apply flatten_inj; congruence). subst t0.
  exists t2. split; auto. unfold data_loss in *. rewrite Hpred. destruct Hl as [(_ & L2 & L3)|[L2 ->]]; [left; auto|].
  right. split; auto. intros l' (_ & M2 & M3). eapply L2. split; [apply Hcomp|]. eauto.
Qed.

(** A loss is determined by the expression. *)
Lemma loss_is_fun {T} (C : eval_cfg T) d e l1 l2 : loss_is C d e l1 -> loss_is C d e l2 -> l1 = l2.
Proof.
  intros (t1 & R1 & H1) (t2 & R2 & H2). unfold represents in *. assert (t2 = t1) by (apply flatten_inj; congruence). subst t2.
  destruct H1 as [H1|[N1 ->]], H2 as [H2|[N2 ->]]; auto; [|exfalso; eapply N2; eauto|exfalso; eapply N1; eauto].
  destruct H1 as (_ & L1 & _), H2 as (_ & L2 & _). congruence.
Qed.

(** *** Cases *)
Lemma evo_demo2_ok : evo_ok evo_demo2 1 9 9.
Proof.
  split.
  - split; [|split; [unfold u16_max; lia|cbn; unfold u8_max; lia]]. split; [reflexivity|]. intros [|[|[|a]]] op Ha Hin; cbn in Ha; try lia; cbn in Hin; try tauto.
    destruct Hin as [<-|[<-|[]]]; split; reflexivity.
  - constructor; cbn; try (unfold u16_max; lia); try discriminate.
  - intros [f|i|a op]; cbn; lia.
  - lia.
  - cbn. unfold u16_max. lia.
Qed.
Lemma demo_limit (S0 : search_cfg xq xq) : sc_F32 S0 = xqops -> sc_warmup_by S0 = XF 0 -> forall rem cur,
  get_cur_maxsize (sc_F32 S0) (sc_of32 S0) (sc_floor32 S0) (sc_warmup_by S0) (sel_maxsize (eo_sel (sc_E S0))) (total_cycles S0) rem = Ok cur -> cur <= sel_maxsize (eo_sel (sc_E S0)).
Proof. intros -> -> rem cur Hg. unfold get_cur_maxsize in Hg. cbn in Hg. injection Hg as <-. auto. Qed.
Lemma search_demo_ok b : search_ok (search_demo b) demo_data 9.
Proof. split; [exact evo_demo2_ok|lia|]. apply demo_limit; reflexivity. Qed.
Lemma demo_data_ok : data_ok demo_data.
Proof. split; [|split; cbn; unfold u16_max; lia]. repeat split; auto. cbn. intros w [= <-]. reflexivity. Qed.

(** The search of C38, two workers and results out of order, has members in its hall of fame; the premises hold. *)
Example C46_case : search_ok (search_demo false) demo_data 9 /\ data_ok demo_data
  /\ exists st0 es c, init_search (search_demo false) demo_data None = Ok st0
  /\ csteps (search_demo false) demo_data None (n_workers (search_demo false) 8) (parallel_start (search_demo false) st0) es c
  /\ map (fun m => (m_complexity m, nodes (m_expr m))) (hof_members (ss_hall (co_st c)))
     = [(7, [Const 0; Var 0; Op 2 5; Var 0; Op 2 5; Var 0; Op 2 0]); (9, [Var 0; Const 0; Var 0; Op 2 5; Var 0; Op 2 5; Var 0; Op 2 0; Op 2 0])].
Proof.
  split; [apply search_demo_ok|]. split; [apply demo_data_ok|].
  apply (after_inv (fun c => map (fun m => (m_complexity m, nodes (m_expr m))) (hof_members (ss_hall (co_st c)))) (search_demo false) demo_data out_of_order). vm_compute. reflexivity.
Qed.

(** Premise of exactness: integers. *)
Definition z_loss_ops : LossOps Z := mkLossOps Z.abs (fun x => x) (fun x => x) (fun x => x) (fun x => x) (fun x _ => x) Z.of_nat 2%Z 1%Z 1%Z.
Definition z_cfg : eval_cfg Z := mkEvalCfg zops z_loss_ops (rational_ops zops) hash0 (u16_max + 1) 2 (mkSizeOpts 1 1 None [] 10 [] []) (make_loss zops z_loss_ops LMse) 0%Z false.
Definition z_opt : OptOps Z := mkOptOps Z.abs (fun x => x) Z.max Z.min 2%Z 3%Z 1%Z 1%Z 1%Z 1%Z 1.
Definition z_evo : evo_cfg Z :=
  mkEvo z_cfg (mkOptCfg zops z_opt (fun x => Some x) (fun x => Some x) false 2 0 0 0%Z (mkBT 0%Z 1%Z 1%Z 0 0 1%Z)) [[]; [(2, 0); (2, 5); (2, 7)]]
    (mkWeights 0 1 0 0 0 1 0 1 1 0 0 0)%Z true 1%Z (fun _ _ _ v => v) (mkCfg (Some 0) (Some 5) (Some 7)) false 1%Z false (fun x => x) 1%Z
    Z.of_nat 0%Z true (mkSel 2 1%Z false 0%Z 9) 20 [] 1.
Example C47_exact_case : evo_ok z_evo 1 9 9 /\ exact_arith (ec_F (eo_C z_evo)) (ec_O (eo_C z_evo)) (eo_ccfg z_evo)
  /\ (forall x, ffinite (ec_F (eo_C z_evo)) x = true)
  /\ (forall a k, registered (eo_reg z_evo) a k -> sub_id (eo_ccfg z_evo) = Some k -> a = 2) /\ forall d, simp_keeps z_evo 1 9 d.
Proof.
  assert (H1 : evo_ok z_evo 1 9 9).
  { split.
    - split; [|split; [unfold u16_max; lia|cbn; unfold u8_max; lia]]. split; [reflexivity|]. intros [|[|[|a]]] op Ha Hin; cbn in Ha; try lia; cbn in Hin; try tauto.
      destruct Hin as [<-|[<-|[<-|[]]]]; split; reflexivity.
    - constructor; cbn; try (unfold u16_max; lia); try discriminate.
    - intros [f|i|a op]; cbn; lia.
    - lia.
    - cbn. unfold u16_max. lia. }
  assert (H2 : exact_arith (ec_F (eo_C z_evo)) (ec_O (eo_C z_evo)) (eo_ccfg z_evo)) by (split; [exact Zth| | |]; intros k x y H; cbn in H; injection H as <-; reflexivity).
  assert (H4 : forall a k, registered (eo_reg z_evo) a k -> sub_id (eo_ccfg z_evo) = Some k -> a = 2).
  { intros a k Hr _. unfold registered in Hr. cbn in Hr. destruct a as [|[|[|a]]]; cbn in Hr; try tauto; try reflexivity. destruct a; cbn in Hr; tauto. }
  split; [exact H1|]. split; [exact H2|]. split; [reflexivity|]. split; [exact H4|].
  intros d. eapply C47_exact_simplification_keeps; eauto.
Qed.

(** With mini-batches the hall of fame keeps losses measured on a batch, which are not the losses on the data: here an entry stored with loss 0 whose
    loss on the data is 547/2, in a search that meets every premise of [C47_all_losses_true] but that one (no mutation simplifies). *)
Definition batch_search : search_cfg xq xq :=
  mkSearch evo_demo2 2 2 2 true 3 1 true (XF (1 # 2)) true (XF (1 # 2)) (fun r _ => (1, r))
    (fun i => mkRng (fun n => n * 9 + 2 + i) (fun n => XF (Qmake (Z.of_nat (Nat.modulo (n + 2 + i) 5)) 7)))
    (mkRng (fun n => n) (fun _ => XF 0)) 100 xqops (fun n => XF (inject_Z (Z.of_nat n))) (fun _ => 0) (XF 0).
Definition batch_expr : expr xq := mkExpr [Const 0; Var 0; Op 2 0; Var 0; Op 2 5; Var 0; Op 2 5; Var 0; Op 2 0] [XF (0 # 7)] [].
Definition batch_tree : tree := TOp 0 [TOp 5 [TOp 5 [TOp 0 [TConst 0; TVar 0]; TVar 0]; TVar 0]; TVar 0].
Lemma batch_true_loss : exists q, loss_is (eo_C (sc_E batch_search)) demo_data batch_expr (XF q) /\ (q == 547 # 2)%Q.
Proof.
  assert (E : exists q, lf_loss (ec_loss (eo_C (sc_E batch_search))) (predictions (eo_C (sc_E batch_search)) demo_data batch_expr batch_tree) (ds_y demo_data) (ds_weights demo_data) = Ok (XF q)
    /\ (q == 547 # 2)%Q) by (eexists; split; [vm_compute; reflexivity|reflexivity]).
  destruct E as (q & E & Hq). exists q. split; [|exact Hq]. exists batch_tree. split; [reflexivity|]. left. split; [|split; [exact E|reflexivity]]. split.
  - intros r Hr. cbn in Hr. destruct r as [|[|[|r]]]; [| | |lia]; vm_compute; reflexivity.
  - intros i [=].
Qed.
Theorem C47_batch_losses_refuted : exists (S0 : search_cfg xq xq) full B st0 es c,
  search_ok S0 full B /\ data_ok full /\ w_simplify (eo_weights (sc_E S0)) = XF 0 /\ init_search S0 full None = Ok st0
  /\ csteps S0 full None (n_workers S0 8) (parallel_start S0 st0) es c /\ finished c
  /\ exists m, In m (pareto_front (ec_F (eo_C (sc_E S0))) (ss_hall (co_st c))) /\ ~ loss_is (eo_C (sc_E S0)) full (m_expr m) (m_loss m).
Proof.
  assert (E : exists l, after (fun c => (map (fun m => (m_expr m, m_loss m)) (pareto_front xqops (ss_hall (co_st c))), (co_left c, co_tasks c, co_flight c))) batch_search demo_data out_of_order
    = Some (l, (0, [], [])) /\ In (batch_expr, XF (0 # 352947)) l) by (eexists; split; [vm_compute; reflexivity|cbn; tauto]).
  destruct E as (l & E & Hin). apply after_inv in E as (st0 & es & c & Hi & Hc & E). injection E as E1 E2 E3 E4.
  exists batch_search, demo_data, 9, st0, es, c.
  split; [split; [exact evo_demo2_ok|lia|apply demo_limit; reflexivity]|]. split; [apply demo_data_ok|]. split; [reflexivity|]. split; [exact Hi|]. split; [exact Hc|].
  split; [repeat split; assumption|]. rewrite <- E1 in Hin. apply in_map_iff in Hin as (m & Em & Hm). exists m. split; [exact Hm|]. injection Em as -> ->.
  intros Hl. destruct batch_true_loss as (q & Hq & Hv). pose proof (loss_is_fun _ _ _ _ _ Hl Hq) as Ef. injection Ef as <-. discriminate Hv.
Qed.

(** Nor is it true of floating point that simplification keeps losses: the Simplify mutation gives the simplified expression its parent's loss without
    evaluating it. Here (x + 1) + (-1), with x = 2^53 and y = 2^53 - 1 in binary64, has loss 0; it is simplified to x + 0, whose loss is 1; the child is
    accepted and stored with loss 0. *)
From Coq Require Import SpecFloat.
Definition sf_loss_ops : LossOps spec_float :=
  mkLossOps SFabs (SFsqrt 53 1024) (fun x => x) (fun x => x) (fun x => x) (fun x _ => x) (fun n => f64lit (Z.of_nat n) 0) (f64lit 2 0) (f64lit 1 (-1)) (f64lit 5764607523034235 (-59)).
Definition sf_cfg : eval_cfg spec_float :=
  mkEvalCfg f64ops sf_loss_ops (rational_ops f64ops) hash0 (u16_max + 1) 2 (mkSizeOpts 1 1 None [] 10 [] []) (make_loss f64ops sf_loss_ops LMse) (S754_zero false) false.
Definition sf_opt : OptOps spec_float :=
  mkOptOps SFabs (SFsqrt 53 1024) (fun x _ => x) (fun x _ => x) (f64lit 2 0) (f64lit 3 0) (f64lit 1 (-1)) (f64lit 1 (-52)) (f64lit 1 (-52)) (f64lit 1 (-26)) 1.
Definition sf_evo : evo_cfg spec_float :=
  let z := S754_zero false in let one := f64lit 1 0 in
  mkEvo sf_cfg (mkOptCfg f64ops sf_opt (fun x => Some x) (fun x => Some x) false 2 0 0 z (mkBT z one one 0 0 one)) [[]; [(2, 0); (2, 5); (2, 7)]]
    (mkWeights z z z z z z z z one z z z) true one (fun _ _ _ v => v) (mkCfg (Some 0) (Some 5) (Some 7)) false one false (fun x => x) one
    (fun n => f64lit (Z.of_nat n) 0) z true (mkSel 2 one false z 9) 20 [] 1.
Definition sf_data : dataset spec_float := mkData (mkMat [f64lit 1 53] 1 1) [f64lit 9007199254740991 0] 1 1 None (S754_zero false).
Definition sf_expr : expr spec_float := mkExpr [Var 0; Const 0; Op 2 0; Const 1; Op 2 0] [f64lit 1 0; f64lit (-1) 0] [].
Definition sf_state : evo_st spec_float := mkEvoSt (mkRng (fun n => n) (fun _ => f64lit 1 (-1))) (evaluator_new f64ops 1) 2 2.
Definition sf_stats : stats spec_float := mkStats (f64lit 1 0) [] [].
Definition sf_run : res (member spec_float * (member spec_float * bool * nat * evo_st spec_float)) :=
  let! m := from_expr sf_cfg 0 None 0 sf_expr 1 in
  let! (m, _, _) := evaluate sf_cfg m sf_data None (evaluator_new f64ops 1) in
  let! r := next_generation sf_evo sf_state m sf_data None (f64lit 1 0) 9 sf_stats in Ok (m, r).
Definition ok_of {X A} (f : X -> A) (r : res X) : option A := match r with Ok v => Some (f v) | _ => None end.
Lemma ok_of_inv {X A} (f : X -> A) (r : res X) x : ok_of f r = Some x -> exists v, r = Ok v /\ f v = x.
Proof. destruct r; cbn; try discriminate. intros [=]. eauto. Qed.
Lemma sf_run_ok m r : sf_run = Ok (m, r) -> next_generation sf_evo sf_state m sf_data None (f64lit 1 0) 9 sf_stats = Ok r.
Proof.
  unfold sf_run. intros E. apply bind_ok in E as (m0 & _ & E). apply bind_ok in E as ([[m1 ev] ok] & _ & E). apply bind_ok in E as (r1 & E1 & E). injection E as <- <-. exact E1.
Qed.
Lemma sf_evo_ok : evo_ok sf_evo 1 9 9.
Proof.
  split.
  - split; [|split; [unfold u16_max; lia|cbn; unfold u8_max; lia]]. split; [reflexivity|]. intros [|[|[|a]]] op Ha Hin; cbn in Ha; try lia; cbn in Hin; try tauto.
    destruct Hin as [<-|[<-|[<-|[]]]]; split; reflexivity.
  - constructor; cbn; try (unfold u16_max; lia); try discriminate.
  - intros [f|i|a op]; cbn; lia.
  - lia.
  - cbn. unfold u16_max. lia.
Qed.
Theorem C47_float_simplification_refuted : exists (E : evo_cfg spec_float) s m d st cur child k s',
  ec_F (eo_C E) = f64ops /\ evo_ok E (ds_n_features d) cur cur /\ data_ok d /\ loss_is (eo_C E) d (m_expr m) (m_loss m)
  /\ next_generation E s m d None (fone f64ops) cur st = Ok (child, true, k, s')
  /\ m_loss child = fzero f64ops /\ loss_is (eo_C E) d (m_expr child) (fone f64ops).
Proof.
  assert (H : ok_of (fun '(m, (b, a, k, s')) => (m_expr m, m_loss m, (m_expr b, m_loss b), a)) sf_run
    = Some (sf_expr, S754_zero false, (mkExpr [Var 0; Const 0; Op 2 0] [S754_zero false] [], S754_zero false), true)) by (vm_compute; reflexivity).
  apply ok_of_inv in H as ([m [[[b a] k] s']] & H & E). apply sf_run_ok in H. injection E as E1 E2 E3 E4 ->.
  exists sf_evo, sf_state, m, sf_data, sf_stats, 9, b, k, s'. split; [reflexivity|]. split; [exact sf_evo_ok|].
  split; [split; [|split; cbn; unfold u16_max; lia]; repeat split; auto; discriminate|].
  split; [|split; [exact H|split; [exact E4|]]].
  - rewrite E1, E2. exists (TOp 0 [TOp 0 [TVar 0; TConst 0]; TConst 1]). split; [reflexivity|]. left. split; [|split; vm_compute; reflexivity].
    split; [|discriminate]. intros [|r] Hr; [vm_compute; reflexivity|cbn in Hr; lia].
  - rewrite E3. exists (TOp 0 [TVar 0; TConst 0]). split; [reflexivity|]. left. split; [|split; vm_compute; reflexivity].
    split; [|discriminate]. intros [|r] Hr; [vm_compute; reflexivity|cbn in Hr; lia].
Qed.

Print Assumptions C46_parallel_search_sound.
Print Assumptions C46_engine_sound.
Print Assumptions C46_front_sound.
Print Assumptions C47_best_loss_is_true.
Print Assumptions C47_engine_best_loss_is_true.
Print Assumptions C47_all_losses_true.
Print Assumptions C47_exact_simplification_keeps.
Print Assumptions C47_batch_losses_refuted.
Print Assumptions C47_float_simplification_refuted.
