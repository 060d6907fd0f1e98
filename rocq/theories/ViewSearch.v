(** Two runs of a search on datasets that look the same to every formula: they agree on everything but the contents of their buffers. *)
From Coq Require Import QArith.
From Verif Require Import Base BaseLemmas Node Tree NodeProofs SpanProofs Compile CompileProofs Eval EvalProofs EvalTop Deriv DerivReach PropEval Utils UtilsProofs PropUtils Simplify PropSimplify
  Rng Registry PropRegistry Lit Mutation MutationProofs PropMutation Complexity ComplexitySpec ComplexityProofs PropComplexity Num Member SortProofs PropHof Selection SelectionProofs
  PropSelection Conditioning Dataset PropDataset Loss PropLoss Optim PropOptim PropOptimTotal ConstOpt PropConstOpt Evolution Frames PropEvolution Search PropSearch PropIds Ready Invariant
  PropWhole PropPanic Instances Simulate View.
Local Open Scope nat_scope.

Lemma f2len {A B} (R : A -> B -> Prop) l l' : Forall2 R l l' -> List.length l = List.length l'.
Proof. induction 1; cbn; auto. Qed.
Lemma Forall2_upd {A B} (R : A -> B -> Prop) l l' i x y : Forall2 R l l' -> R x y -> Forall2 R (upd l i x) (upd l' i y).
Proof.
  intros H Hxy. revert i. induction H as [|a b l l' Hab H IH]; intros i; [destruct i; constructor|]. destruct i; cbn; constructor; auto.
Qed.
Lemma Forall2_nth {A B} (R : A -> B -> Prop) l l' i : Forall2 R l l' -> match nth_error l i, nth_error l' i with Some a, Some b => R a b | None, None => True | _, _ => False end.
Proof. intros H. revert i. induction H; intros [|i]; cbn; auto. apply IHForall2. Qed.
Lemma index_sim {A B} (R : A -> B -> Prop) l l' i : Forall2 R l l' -> agree R (index l i) (index l' i).
Proof. intros H. unfold index. pose proof (Forall2_nth R l l' i H). destruct (nth_error l i), (nth_error l' i); cbn in *; auto; contradiction. Qed.
Lemma set_index_sim {A B} (R : A -> B -> Prop) l l' i x y : Forall2 R l l' -> R x y -> agree (Forall2 R) (set_index l i x) (set_index l' i y).
Proof. intros H Hxy. unfold set_index. rewrite (f2len _ _ _ H). destruct (_ <? _); cbn; auto. apply Forall2_upd; auto. Qed.

Definition orel {A B} (R : A -> B -> Prop) (a : option A) (b : option B) : Prop :=
  match a, b with Some x, Some y => R x y | None, None => True | _, _ => False end.

Section Sim.
Context {T W : Type} (S0 : search_cfg T W) (d d' : dataset T) (bl : option T) (B : nat) (L : live S0 d B) (L' : live S0 d' B).
Local Notation E := (sc_E S0).
Local Notation C := (eo_C (sc_E S0)).
Local Notation F := (ec_F (eo_C (sc_E S0))).
Local Notation D := (ec_D (eo_C (sc_E S0))).
Local Notation maxsize := (sel_maxsize (eo_sel (sc_E S0))).
Local Notation nf := (ds_n_features d).
Local Notation snd_ := (sound E nf B bl).
Local Notation wf := (wf_expr E nf B).
Local Notation HS := (lv_ok _ _ _ L).
Local Notation Sn := (seen S0 d B).
Context (V : same_view C wf d d') (Hb : sc_batching S0 = false) (Hh : forall ns, Sn ns -> told_apart (ec_hash C) Sn ns).

Definition rd (ev ev' : evaluator T) : Prop := ready (ds_n_rows d) ev /\ ready (ds_n_rows d') ev'.
Definition rg0 (gc gc' : dctx T) : Prop := grad_reach F (ec_O C) (ec_hash C) D Sn gc /\ grad_reach F (ec_O C) (ec_hash C) D Sn gc'.
Definition rg (gc gc' : dctx T) : Prop := rg0 gc gc' /\ d_rows gc = ds_n_rows d /\ d_rows gc' = ds_n_rows d'.
Definition res_ (s s' : evo_st T) : Prop := es_rng s = es_rng s' /\ rd (es_ev s) (es_ev s') /\ es_id s = es_id s' /\ es_birth s = es_birth s'.

Lemma nf_eq : ds_n_features d' = nf.
Proof. exact (sv_features _ _ _ _ V). Qed.
Lemma usable_d : usable d d.
Proof. eapply usable_full; exact L. Qed.
Lemma usable_d' : usable d' d'.
Proof. eapply usable_full; exact L'. Qed.
Lemma good_' m : good E nf B m -> good E (ds_n_features d') B m.
Proof. rewrite nf_eq. auto. Qed.

Lemma trees m : good E nf B m -> exists t, represents (m_expr m) t
  /\ (ok_tree (ec_O C) D (m_expr m) (ds_x d) t /\ fits_u16 (m_expr m) (ds_x d) t /\ plan_fresh C nf m)
  /\ (ok_tree (ec_O C) D (m_expr m) (ds_x d') t /\ fits_u16 (m_expr m) (ds_x d') t /\ plan_fresh C (ds_n_features d') m)
  /\ tsize t <= ec_umax C /\ expr_ok D nf (reg_known (eo_reg E)) (m_expr m).
Proof.
  intros Hg. destruct (good_tree S0 d B L d m usable_d Hg) as (t & R & A1 & A2 & A3 & A4 & A5).
  destruct (good_tree S0 d' B L' d' m usable_d' (good_' m Hg)) as (t' & R' & B1 & B2 & _ & _ & B5).
  assert (t' = t) as -> by (unfold represents in *; apply flatten_inj; congruence). exists t. auto 10.
Qed.

Lemma evaluate_sim m ev ev' : good E nf B m -> rd ev ev' ->
  agree (fun a b => fst (fst a) = fst (fst b) /\ snd a = snd b /\ rd (snd (fst a)) (snd (fst b))) (evaluate C m d bl ev) (evaluate C m d' bl ev').
Proof.
  intros Hg [Hr Hr']. destruct (trees m Hg) as (t & R & (A1 & A2 & A3) & (B1 & B2 & B3) & Hsz & Hex).
  destruct (lv_data _ _ _ L) as (Dd & Dn & _). destruct (lv_data _ _ _ L') as (Dd' & Dn' & _).
  pose proof (ok_widths _ _ _ _ (evo0 S0 d B L 0 ltac:(lia))) as Wd.
  destruct (evaluate_spec C m d bl ev t nf (reg_known (eo_reg E)) Dd A1 A2 Dn A3 Hr Wd Hex Hsz) as (e1 & I1 & K1).
  destruct (evaluate_spec C m d' bl ev' t nf (reg_known (eo_reg E)) Dd' B1 B2 Dn' B3 Hr' Wd Hex Hsz) as (e2 & I2 & K2).
  pose proof (sv_completes _ _ _ _ V _ _ (proj1 Hg) R) as A.
  destruct K1 as [[N1 ->]|[N1 K1]], K2 as [[N2 ->]|[N2 K2]]; [cbn; split; auto; split; auto; split; auto|tauto|tauto|].
  rewrite <- (sv_loss _ _ _ _ V _ _ (proj1 Hg) R N1) in K2.
  destruct (lf_loss _ (predictions C d (m_expr m) t) _ _) as [l| |]; [|rewrite K1, K2; exact I|rewrite K1, K2; exact I].
  destruct (ffinite F l); rewrite K1, K2; cbn; split; auto; split; auto; split; auto.
Qed.

Lemma wf_with e cs : wf e -> List.length cs = List.length (consts e) -> wf (with_consts e cs).
Proof. intros (t & H1 & H2 & H3 & H4) Hl. exists t. cbn [with_consts nodes consts]. rewrite Hl. auto. Qed.

Definition ropt (a b : rng T * member T * evaluator T * dctx T * nat * bool * nat) : Prop :=
  let '(g1, m1, v1, c1, n1, i1, k1) := a in let '(g2, m2, v2, c2, n2, i2, k2) := b in
  g1 = g2 /\ m1 = m2 /\ rd v1 v2 /\ rg c1 c2 /\ n1 = n2 /\ i1 = i2 /\ k1 = k2.

Lemma optimize_sim g m ev ev' gc gc' nb : good E nf B m -> rd ev ev' -> rg gc gc' ->
  agree ropt (optimize_constants C (eo_opt E) g m d bl ev gc nb) (optimize_constants C (eo_opt E) g m d' bl ev' gc' nb).
Proof.
  intros Hg Hrd Hrg. destruct (trees m Hg) as (t & R & (A1 & A2 & A3) & (B1 & B2 & B3) & Hsz & Hex).
  destruct (lv_data _ _ _ L) as (Dd & Dn & _). destruct (lv_data _ _ _ L') as (Dd' & Dn' & _).
  pose proof (lv_loss _ _ _ L d Dd) as Hl. pose proof (lv_loss _ _ _ L' d' Dd') as Hl'.
  assert (Hse : Sn (nodes (m_expr m))) by (exists (m_expr m); split; [apply Hg|auto]).
  unfold optimize_constants. cbv zeta. destruct (oc_enabled (eo_opt E)); cbn [negb]; [|cbn; auto 10]. destruct (_ =? 0); [cbn; auto 10|].
  assert (H1 : agree (fun a b => ev_ready d (fst a) /\ ev_ready d' (fst b) /\ snd a = snd b) (loss_only C (eo_opt E) (m_plan m) (m_expr m) d ev) (loss_only C (eo_opt E) (m_plan m) (m_expr m) d' ev')).
  { assert (Ew : m_expr m = with_consts (m_expr m) (consts (m_expr m))) by (destruct (m_expr m); reflexivity). rewrite Ew at 1 2.
    apply (loss_only_sim C (eo_opt E) d d' wf V Dd Dd' Dn Dn' Hl Hl' wf_with (m_expr m) (m_plan m) t (proj1 Hg) A1 B1 A2 B2 A3); [reflexivity|apply Hrd|apply Hrd]. }
  eapply agree_bind; [exact H1|]. intros [e1 b] [e2 b'] _ _ (R1 & R2 & Hbb). cbn [fst snd] in *. subst b'. destruct b as [base|]; [|cbn; split; [auto|split; [auto|split; [split; [exact R1|exact R2]|auto]]]].
  assert (HRS : RS C d d' (m_expr m) Sn (mkCState (consts (m_expr m)) e1 gc (fill (ds_n_rows d) (fzero F))) (mkCState (consts (m_expr m)) e2 gc' (fill (ds_n_rows d') (fzero F)))).
  { destruct Hrg as ((G1 & G2) & G3 & G4). split; [reflexivity|]. split; (split; [reflexivity|split; [auto|split; [auto|split; [auto|apply fill_length]]]]). }
  eapply agree_bind; [apply (from_start_sim C (eo_opt E) d d' wf V Dd Dd' Dn Dn' Hl Hl' wf_with (m_expr m) (m_plan m) t (proj1 Hg) A1 B1 A2 B2 A3 Sn Hse (Hh _ Hse)); exact HRS|].
  intros [s1 o] [s2 o'] _ _ (HR1 & Ho). cbn [fst snd] in *. subst o'.
  eapply agree_bind; [apply (restarts_sim C (eo_opt E) d d' wf V Dd Dd' Dn Dn' Hl Hl' wf_with (m_expr m) (m_plan m) t (proj1 Hg) A1 B1 A2 B2 A3 Sn Hse (Hh _ Hse)); exact HR1|].
  intros [[r1 s3] [[bx bf] evals]] [[r2 s4] best'] _ _ (HR2 & Hr & Hbest). cbn [fst snd] in *. subst r2 best'.
  destruct HR2 as (HC1 & (I1 & I2 & I3 & I4 & I5) & (J1 & J2 & J3 & J4 & J5)).
  destruct (fltb _ bf base); [|cbn; repeat (split; auto)].
  rewrite <- HC1. destruct (zip_eq (cs_consts s3) bx) as [z| |] eqn:Ez; cbn [bind]; try exact I.
  assert (Hx : List.length (cs_consts s3) = List.length bx) by (unfold zip_eq, assert_ in Ez; destruct (Nat.eqb_spec (List.length (cs_consts s3)) (List.length bx)); [auto|discriminate]).
  set (cs := map _ bx). assert (Hcs : List.length cs = List.length (consts (m_expr m))) by (unfold cs; rewrite map_length; congruence).
  assert (Hgs : good E nf B (set_consts m cs)).
  { destruct Hg as [W1 W2]. split; [apply wf_with; auto|]. unfold plan_fresh in *. cbn [set_consts m_expr m_plan with_consts nodes consts]. rewrite Hcs. exact W2. }
  eapply agree_bind; [apply evaluate_sim; [exact Hgs|split; [exact I2|exact J2]]|]. intros [[m1 v1] ok] [[m2 v2] ok'] _ _ (Hm & Hok & Hv). cbn [fst snd] in *. subst m2 ok'.
  destruct ok; cbn; repeat (split; auto).
Qed.

(** *** The mutations *)
Definition rapp (a b : @outcome T * rng T * evaluator T) : Prop := fst a = fst b /\ rd (snd a) (snd b).
Lemma apply_sim c g ev ev' m temp cur : good E nf B m -> rd ev ev' -> agree rapp (apply E c g ev m (m_expr m) d bl temp cur) (apply E c g ev' m (m_expr m) d' bl temp cur).
Proof.
  intros Hg Hr.
  assert (Hin : forall r : mutated T, agree rapp (in_place ev r) (in_place ev' r)).
  { intros r. unfold in_place. destruct r as [[[b e] g1]| |]; cbn [bind]; try exact I. cbn. split; auto. }
  unfold apply. cbv zeta. rewrite nf_eq. destruct c; try apply Hin.
  - destruct (simplify_in_place _ _ _ _ _ _) as [[e1 ch]| |]; cbn [bind]; try exact I. cbn. split; auto.
  - destruct (usize_range_inclusive _ _ _) as [[k g1]| |]; cbn [bind]; try exact I. destruct (random_expr _ _ _ _ _) as [[e1 g2]| |]; cbn [bind]; try exact I. cbn. split; auto.
  - cbn. split; auto.
  - destruct (from_expr _ _ _ _ _ _) as [tmp| |]; cbn [bind]; try exact I. set (m1 := mkMember _ _ _ _ _ _ _ _).
    eapply agree_bind; [apply (optimize_sim g m1 ev ev' (dctx_new F (ds_n_rows d)) (dctx_new F (ds_n_rows d')) 0); [exact Hg|exact Hr|]|].
    + split; [split; constructor|split; reflexivity].
    + intros [[[[[[g1 x1] v1] c1] n1] i1] k1] [[[[[[g2 x2] v2] c2] n2] i2] k2] _ _ (-> & -> & Hv & _ & _ & _ & ->). cbn. split; auto.
Qed.
Definition ratt (a b : option (expr T * bool) * nat * rng T * evaluator T) : Prop := fst a = fst b /\ rd (snd a) (snd b).
Lemma attempts_sim c m temp cur : good E nf B m -> forall n g ev ev' evals, rd ev ev' ->
  agree ratt (attempts E n c g ev m d bl temp cur evals) (attempts E n c g ev' m d' bl temp cur evals).
Proof.
  intros Hg. induction n as [|n IH]; intros g ev ev' evals Hr; cbn [attempts]; [cbn; split; auto|].
  eapply agree_bind; [apply apply_sim; eauto|]. intros [[[[[e mu] k] imm] g1] v1] [[o2 g2] v2] _ _ [He Hv]. cbn [fst snd] in *. injection He as <- <-. cbv zeta.
  destruct mu; cbn [negb]; [|apply IH; exact Hv]. destruct (compress_constants e) as [[tree ch]| |]; cbn [bind]; try exact I.
  destruct (check E tree cur) as [ok| |]; cbn [bind]; try exact I. destruct ok; [cbn; split; auto|apply IH; exact Hv].
Qed.

Definition rgen (a b : member T * bool * nat * evo_st T) : Prop := fst a = fst b /\ res_ (snd a) (snd b).
Lemma next_sim s s' m temp cur st : cur <= maxsize -> good E nf B m -> res_ s s' ->
  agree rgen (next_generation E s m d bl temp cur st) (next_generation E s' m d' bl temp cur st).
Proof.
  intros Hcur Hg (R1 & R2 & R3 & R4). unfold next_generation. cbv zeta. rewrite nf_eq, <- R1, <- R3, <- R4.
  destruct (sample_mutation _ _ _) as [[c g]| |]; cbn [bind]; try exact I.
  eapply agree_bind; [apply attempts_sim; eauto|]. intros [[[found evals] g1] v1] [q v2] Ea _ [Hq Hv]. cbn [fst snd] in *. subst q.
  assert (Hnext : forall g0 w w', rd w w' -> res_ (mkEvoSt g0 w (es_id s + 1) (es_birth s + 1)) (mkEvoSt g0 w' (es_id s + 1) (es_birth s + 1))) by (intros; split; [reflexivity|cbn; auto]).
  destruct found as [[tree [|]]|].
  - destruct (from_expr _ _ _ _ _ _) as [b1| |]; cbn [bind]; try exact I. destruct (rebuild_plan _ _ _) as [b2| |]; cbn [bind]; try exact I.
    destruct (compute_complexity _ _ _ _) as [cx| |]; cbn [bind]; try exact I. cbn. split; auto. apply Hnext. exact Hv.
  - destruct (from_expr _ _ _ _ _ _) as [b1| |] eqn:Eb; cbn [bind]; try exact I.
    apply (attempts_spec E nf B cur bl (evo0 S0 d B L cur Hcur)) in Ea as [Hwt _]; [|apply Hg|reflexivity].
    assert (Hgb : good E nf B b1) by (apply from_expr_frame in Eb as (_ & _ & _ & I4 & I5); split; [rewrite I4; auto|unfold plan_fresh; rewrite I4; exact I5]).
    eapply agree_bind; [apply evaluate_sim; [exact Hgb|exact Hv]|]. intros [[m1 w1] ok] [[m2 w2] ok'] _ _ (Hm & Hok & Hw). cbn [fst snd] in *. subst m2 ok'.
    destruct (_ || _).
    + destruct (copy_parent _ _ _ _ _) as [rej| |]; cbn [bind]; try exact I. cbn. split; auto. apply Hnext. exact Hw.
    + destruct (acceptance _ _ _ _ _ _ _) as [pr| |]; cbn [bind]; try exact I. destruct (rng_real g1) as [u g2]. destruct (fltb F pr u).
      * destruct (copy_parent _ _ _ _ _) as [rej| |]; cbn [bind]; try exact I. cbn. split; auto. apply Hnext. exact Hw.
      * cbn. split; auto. apply Hnext. exact Hw.
  - destruct (copy_parent _ _ _ _ _) as [rej| |]; cbn [bind]; try exact I. cbn. split; auto. apply Hnext. exact Hv.
Qed.

Definition rcross (a b : member T * member T * bool * nat * evo_st T) : Prop := fst a = fst b /\ res_ (snd a) (snd b).
Lemma crossover_sim m1 m2 cur : cur <= maxsize -> good E nf B m1 -> good E nf B m2 -> forall n s s', res_ s s' ->
  agree rcross (crossover_loop E n s m1 m2 d bl cur) (crossover_loop E n s' m1 m2 d' bl cur).
Proof.
  intros Hcur Hg1 Hg2. pose proof Hg1 as [Hw1 _]. pose proof Hg2 as [Hw2 _]. pose proof (evo0 S0 d B L cur Hcur) as He0. pose proof (ok_small _ _ _ _ He0) as Hsm. pose proof (ok_cur _ _ _ _ He0).
  destruct (wf_denotes E nf B _ Hw1) as (x1 & D1 & X1). destruct (wf_denotes E nf B _ Hw2) as (x2 & D2 & X2).
  pose proof Hw1 as (t1 & R1 & T1 & N1 & C1). pose proof Hw2 as (t2 & R2 & T2 & N2 & C2).
  induction n as [|n IH]; intros s s' (Q1 & Q2 & Q3 & Q4); cbn [crossover_loop]; [cbn; split; auto; split; auto|]. rewrite <- Q1, <- Q3, <- Q4, nf_eq.
  destruct (C20_crossover T F D nf (reg_known (eo_reg E)) (es_rng s) (m_expr m1) (m_expr m2) x1 x2 D1 D2 X1 X2 ltac:(lia))
    as (a' & b' & g' & Ka & sa & Kb & sb & Ex & _ & _ & Da & Db & Xa & Xb & Hsum & _ & _ & Ca & Cb).
  rewrite Ex. cbn [bind].
  assert (Ha : expr_ok D nf (reg_known (eo_reg E)) a') by (apply (expr_ok_denotes F); eauto). assert (Hb' : expr_ok D nf (reg_known (eo_reg E)) b') by (apply (expr_ok_denotes F); eauto).
  assert (Hrec : res_ (mkEvoSt g' (es_ev s) (es_id s) (es_birth s)) (mkEvoSt g' (es_ev s') (es_id s) (es_birth s))) by (split; [reflexivity|cbn; auto]).
  destruct (check E a' cur) as [k1| |] eqn:E1; cbn [bind]; try exact I. destruct k1; cbn [bind]; [|apply IH; exact Hrec].
  destruct (check E b' cur) as [k2| |] eqn:E2; cbn [bind]; try exact I. destruct k2; [|apply IH; exact Hrec]. cbv zeta.
  assert (Wa : wf a' /\ wf b').
  { destruct Ha as (ta & Ra & Ta). destruct Hb' as (tb & Rb & Tb).
    pose proof (feasible_nodes E nf B cur He0 a' ta Ra (proj1 (check_spec E nf B cur He0 a' ta true Ra Ta E1) eq_refl)).
    pose proof (feasible_nodes E nf B cur He0 b' tb Rb (proj1 (check_spec E nf B cur He0 b' tb true Rb Tb E2) eq_refl)).
    split; [exists ta|exists tb]; repeat split; auto; lia. }
  destruct Wa as [Wa Wb].
  destruct (from_expr _ _ _ _ a' _) as [y1| |] eqn:Y1; cbn [bind]; try exact I. destruct (from_expr _ _ _ _ b' _) as [y2| |] eqn:Y2; cbn [bind]; try exact I.
  apply from_expr_frame in Y1 as (_ & _ & _ & I4 & I5). apply from_expr_frame in Y2 as (_ & _ & _ & J4 & J5).
  eapply agree_bind; [apply evaluate_sim; [split; [rewrite I4; auto|unfold plan_fresh; rewrite I4; exact I5]|exact Q2]|]. intros [[z1 w1] o1] [[z2 w2] o2] _ _ (Hz & _ & Hw). cbn [fst snd] in *. subst z2.
  eapply agree_bind; [apply evaluate_sim; [split; [rewrite J4; auto|unfold plan_fresh; rewrite J4; exact J5]|exact Hw]|]. intros [[z3 w3] o3] [[z4 w4] o4] _ _ (Hz & _ & Hw3). cbn [fst snd] in *. subst z4.
  cbn. split; auto. split; cbn; auto.
Qed.

(** *** Evolution *)
Definition rpop (a b : list (member T) * evo_st T * nat) : Prop := fst (fst a) = fst (fst b) /\ res_ (snd (fst a)) (snd (fst b)) /\ snd a = snd b.
Lemma evol_step_sim pop s s' temp cur st : cur <= maxsize -> Forall snd_ pop -> res_ s s' ->
  agree rpop (evol_step E pop s d bl temp cur st) (evol_step E pop s' d' bl temp cur st).
Proof.
  intros Hcur Hs (Q1 & Q2 & Q3 & Q4). rewrite Forall_forall in Hs. unfold evol_step. rewrite <- Q1, <- Q3, <- Q4. destruct (rng_real (es_rng s)) as [u g]. destruct (fgtb F u _).
  - destruct (tournament E g pop st) as [[a g1]| |] eqn:Et; cbn [bind]; try exact I. apply tournament_in in Et.
    eapply agree_bind; [apply next_sim; [exact Hcur|apply (sound_good S0 d bl B _ (Hs _ Et))|split; [reflexivity|cbn; auto]]|].
    intros [[[b acc] k] s1] [q s2] _ _ [Hq Hr]. cbn [fst snd] in *. subst q. destruct (_ && _); [cbn; split; auto|].
    destruct (replace_oldest pop b) as [p1| |]; cbn [bind]; try exact I. cbn. split; auto.
  - destruct (tournament E g pop st) as [[a1 g1]| |] eqn:Et; cbn [bind]; try exact I. apply tournament_in in Et.
    destruct (tournament E g1 pop st) as [[a2 g2]| |] eqn:Et2; cbn [bind]; try exact I. apply tournament_in in Et2.
    eapply agree_bind; [apply (crossover_sim a1 a2 cur Hcur (sound_good S0 d bl B _ (Hs _ Et)) (sound_good S0 d bl B _ (Hs _ Et2))); split; [reflexivity|cbn; auto]|].
    intros [[[[b1 b2] acc] k] s1] [q s2] _ _ [Hq Hr]. cbn [fst snd] in *. subst q. destruct (_ && _); [cbn; split; auto|].
    destruct (replace_two_oldest pop b1 b2) as [p1| |]; cbn [bind]; try exact I. cbn. split; auto.
Qed.
Lemma evol_steps_sim temp cur st : cur <= maxsize -> forall n pop s s' ev, Forall snd_ pop -> res_ s s' ->
  agree rpop (evol_steps E n pop s d bl temp cur st ev) (evol_steps E n pop s' d' bl temp cur st ev).
Proof.
  intros Hcur. induction n as [|n IH]; intros pop s s' ev Hs Hr; cbn [evol_steps]; [cbn; split; auto|].
  eapply agree_bind; [apply evol_step_sim; eauto|]. intros [[p1 s1] k] [[p2 s2] k2] E1 _ (Hp & Hr1 & Hk). cbn [fst snd] in *. subst p2 k2.
  apply (evol_step_spec E nf B cur bl (evo0 S0 d B L cur Hcur)) in E1; auto. apply IH; auto. eapply each_new_sound; eauto.
Qed.
Definition rcyc (a b : list (member T) * evo_st T * hof T * nat) : Prop := fst (fst (fst a)) = fst (fst (fst b)) /\ res_ (snd (fst (fst a))) (snd (fst (fst b))) /\ snd (fst a) = snd (fst b) /\ snd a = snd b.
Lemma sr_cycles_sim cur st nn : cur <= maxsize -> forall idx pop s s' best ev, Forall snd_ pop -> res_ s s' ->
  agree rcyc (sr_cycles E idx nn pop s best d bl cur st ev) (sr_cycles E idx nn pop s' best d' bl cur st ev).
Proof.
  intros Hcur. induction idx as [|i idx IH]; intros pop s s' best ev Hs Hr; cbn [sr_cycles]; [cbn; split; auto|]. unfold reg_evol_cycle.
  eapply agree_bind; [apply evol_steps_sim; eauto|]. intros [[p1 s1] k] [[p2 s2] k2] E1 _ (Hp & Hr1 & Hk). cbn [fst snd] in *. subst p2 k2.
  apply (evol_steps_spec E nf B cur bl (evo0 S0 d B L cur Hcur)) in E1; auto.
  destruct (update_hof E best p1 cur) as [h| |]; cbn [bind]; try exact I. apply IH; auto. eapply each_new_sound; eauto.
Qed.
Lemma s_r_cycle_sim pop s s' cur st : cur <= maxsize -> Forall snd_ pop -> res_ s s' -> agree rcyc (s_r_cycle E pop s d bl cur st) (s_r_cycle E pop s' d' bl cur st).
Proof. intros Hcur Hs Hr. unfold s_r_cycle. cbv zeta. destruct (update_hof E _ pop cur) as [h| |]; cbn [bind]; try exact I. apply sr_cycles_sim; auto. Qed.

(** *** The second half of a task *)
Definition rhalf (a b : list (member T) * evo_st T * dctx T * nat) : Prop :=
  fst (fst (fst a)) = fst (fst (fst b)) /\ res_ (snd (fst (fst a))) (snd (fst (fst b))) /\ rg0 (snd (fst a)) (snd (fst b)) /\ snd a = snd b.
Lemma optimize_members_sim : forall ms s s' gc gc' ev, Forall (good E nf B) ms -> res_ s s' -> rg gc gc' ->
  agree rhalf (optimize_members E ms s gc d bl ev) (optimize_members E ms s' gc' d' bl ev).
Proof.
  induction ms as [|m ms IH]; intros s s' gc gc' ev Hg (Q1 & Q2 & Q3 & Q4) Hgc; cbn [optimize_members]; [cbn; split; auto; split; [split; auto|split; [apply Hgc|auto]]|]. inversion Hg; subst.
  rewrite <- Q1, <- Q3, <- Q4. destruct (rng_real (es_rng s)) as [u g]. destruct (fltb F u _).
  - eapply agree_bind; [apply optimize_sim; eauto|]. intros [[[[[[g1 x1] v1] c1] n1] i1] k1] [[[[[[g2 x2] v2] c2] n2] i2] k2] _ _ (-> & -> & Hv & Hc & -> & -> & ->).
    eapply agree_bind; [apply IH; [auto|split; [reflexivity|cbn; auto]|exact Hc]|]. intros [[[l1 s1] cc] kk] [[[l2 s2] cc2] kk2] _ _ (Hp & Hs & Hcc & Hk). cbn [fst snd] in *. subst. cbn. split; auto.
  - eapply agree_bind; [apply IH; [auto|split; [reflexivity|cbn; auto]|exact Hgc]|]. intros [[[l1 s1] cc] kk] [[[l2 s2] cc2] kk2] _ _ (Hp & Hs & Hcc & Hk). cbn [fst snd] in *. subst. cbn. split; auto.
Qed.
Lemma evaluate_members_sim : forall ms ev ev', Forall (good E nf B) ms -> rd ev ev' ->
  agree (fun a b => fst a = fst b /\ rd (snd a) (snd b)) (evaluate_members E ms ev d bl) (evaluate_members E ms ev' d' bl).
Proof.
  induction ms as [|m ms IH]; intros ev ev' Hg Hr; cbn [evaluate_members]; [cbn; auto|]. inversion Hg; subst.
  eapply agree_bind; [apply evaluate_sim; eauto|]. intros [[m1 w1] o1] [[m2 w2] o2] _ _ (Hm & _ & Hw). cbn [fst snd] in *. subst m2.
  eapply agree_bind; [apply IH; eauto|]. intros [l1 v1] [l2 v2] _ _ (Hl & Hv). cbn [fst snd] in *. subst l2. cbn. auto.
Qed.
Lemma second_half_sim pop s s' gc gc' : Forall (good E nf B) pop -> res_ s s' -> rg0 gc gc' ->
  agree rhalf (optimize_and_simplify_population E pop s gc d d bl) (optimize_and_simplify_population E pop s' gc' d' d' bl).
Proof.
  intros Hg (Q1 & Q2 & Q3 & Q4) Hgc. unfold optimize_and_simplify_population. rewrite nf_eq. pose proof (evo0 S0 d B L 0 ltac:(lia)) as He0.
  destruct (if eo_simplify E then mapM (simplify_member E nf) pop else Ok pop) as [p1| |] eqn:E1; cbn [bind]; try exact I.
  assert (G1 : Forall (good E nf B) p1) by (destruct (eo_simplify E); [eapply (simplify_all E nf B 0 He0); eauto|injection E1 as <-; auto]).
  rewrite <- Q1, <- Q3, <- Q4.
  assert (Hen : forall w w', rd w w' -> rd (ensure_n_rows F w (ds_n_rows d)) (ensure_n_rows F w' (ds_n_rows d'))) by (intros w w' [X Y]; split; apply ensure_ready; [apply X|apply Y]).
  eapply agree_bind with (R := fun a b => rhalf a b /\ Forall (good E nf B) (fst (fst (fst a)))).
  - destruct (_ && _).
    + eapply agree_impl; [|apply optimize_members_sim; [exact G1|split; [reflexivity|cbn; auto]|]].
      * intros [[[l1 s1] c1] k1] b Ea _ Hr. split; auto. cbn [fst]. eapply (optimize_all E nf B bl); [|exact Ea]. exact G1.
      * destruct Hgc as [X Y]. split; [split; apply greach_rows; auto|split; reflexivity].
    + cbn. split; auto. split; auto. split; [split; auto|auto].
  - intros [[[l1 s1] c1] k1] [[[l2 s2] c2] k2] _ _ [(Hp & (P1 & P2 & P3 & P4) & Hcc & Hk) Hgl]. cbn [fst snd] in *. subst l2 k2.
    eapply agree_bind; [apply evaluate_members_sim; [exact Hgl|apply Hen; exact P2]|]. intros [l3 v3] [l4 v4] _ _ (Hl & Hv). cbn [fst snd] in *. subst l4. cbn. split; auto. split; [split; cbn; auto|split; auto].
Qed.

(** *** Tasks *)
Definition rps (a b : pop_state T) : Prop := ps_pop a = ps_pop b /\ res_ (ps_st a) (ps_st b) /\ rg0 (ps_gc a) (ps_gc b).
Definition rtask (a b : task T) : Prop := tk_idx a = tk_idx b /\ tk_cur a = tk_cur b /\ tk_stats a = tk_stats b /\ rps (tk_pop a) (tk_pop b).
Definition rresult (a b : task_result T) : Prop :=
  tr_idx a = tr_idx b /\ tr_cur a = tr_cur b /\ tr_evals a = tr_evals b /\ tr_seen a = tr_seen b /\ tr_sub a = tr_sub b /\ rps (tr_pop a) (tr_pop b).

Lemma execute_sim t t' : live_task S0 d bl B t -> rtask t t' -> agree rresult (execute_task S0 d bl t) (execute_task S0 d' bl t').
Proof.
  intros ((Pl & Ps & Pr) & Hheld & Hcur & Hst & Hi) (I1 & I2 & I3 & (Q1 & Q2 & Q3)). unfold execute_task, phase. rewrite Hb. cbn [bind]. rewrite <- I1, <- I2, <- I3, <- Q1.
  eapply agree_bind; [apply s_r_cycle_sim; eauto|]. intros [[[p1 s1] h1] k1] [[[p2 s2] h2] k2] Ec _ (Hp & Hs & Hh1 & Hk). cbn [fst snd] in *. subst p2 h2 k2. cbn [bind ps_pop ps_st ps_gc ps_batch].
  destruct (C42_iteration _ _ _ _ _ _ _ _ _ _ _ _ _ _ (evo0 S0 d B L _ Hcur) Ps eq_refl Ec) as (_ & M1 & _).
  eapply agree_bind; [apply second_half_sim; eauto|].
  { apply Forall_forall. intros m Hm. apply (sound_good S0 d bl B), M1, Hm. }
  intros [[[l1 s3] c1] k3] [[[l2 s4] c2] k4] _ _ (Hl & Hs3 & Hc & Hk). cbn [fst snd] in *. subst l2 k4.
  destruct (best_sub_pop F l1 (sc_topn S0)) as [sub| |]; cbn [bind]; try exact I. cbn. repeat (split; auto).
Qed.

(** *** The coordinator *)
Record rst (a b : search_st T) : Prop := {
  rst_pops : Forall2 (orel rps) (ss_pops a) (ss_pops b);
  rst_subs : ss_subs a = ss_subs b;
  rst_best : ss_best a = ss_best b;
  rst_evals : ss_evals a = ss_evals b;
  rst_started : ss_started a = ss_started b;
  rst_completed : ss_completed a = ss_completed b;
  rst_stats : ss_stats a = ss_stats b;
  rst_hall : ss_hall a = ss_hall b;
  rst_order : ss_order a = ss_order b }.

Lemma migrate_sim a b mig frac : rps a b -> agree rps (migrate S0 a mig frac) (migrate S0 b mig frac).
Proof.
  intros (Q1 & (R1 & R2 & R3 & R4) & Q3). unfold migrate. cbv zeta. rewrite <- Q1, <- R1, <- R3, <- R4.
  destruct (migrate_into _ _ _ _ _ _ _ _ _) as [[[[p g] i] bb]| |]; cbn [bind]; try exact I. cbn. split; auto. split; auto. split; cbn; auto.
Qed.
Lemma apply_result_sim st st' r r' : rst st st' -> rresult r r' -> agree rst (apply_task_result S0 st r) (apply_task_result S0 st' r').
Proof.
  intros [P1 P2 P3 P4 P5 P6 P7 P8 P9] (I1 & I2 & I3 & I4 & I5 & I6). pose proof I6 as (Q1 & Q2 & Q3). unfold apply_task_result. cbv zeta.
  rewrite <- I1, <- I2, <- I3, <- I4, <- I5, <- P2, <- P3, <- P4, <- P5, <- P6, <- P7, <- P8, <- P9, <- Q1.
  destruct (set_index (ss_subs st) _ _) as [subs| |]; cbn [bind]; try exact I.
  eapply agree_bind; [apply index_sim; exact P1|]. intros _ _ _ _ _.
  destruct (offer _ _ _ _) as [h1| |]; cbn [bind]; try exact I. destruct (offer_best _ _ _ _ _) as [[h2 bst]| |]; cbn [bind]; try exact I.
  eapply agree_bind with (R := rps); [destruct (sc_migration S0); [apply migrate_sim; exact I6|exact I6]|]. intros a b _ _ Hab.
  eapply agree_bind with (R := rps); [destruct (sc_hof_migration S0); [apply migrate_sim; exact Hab|exact Hab]|]. intros a2 b2 _ _ Hab2.
  eapply agree_bind; [apply (set_index_sim (orel rps)); [exact P1|exact Hab2]|]. intros l l' _ _ Hl. cbn. split; auto.
Qed.
Lemma dispatch_sim st st' i : rst st st' -> agree (orel (fun a b => rst (fst a) (fst b) /\ rtask (snd a) (snd b))) (dispatch S0 st i) (dispatch S0 st' i).
Proof.
  intros [P1 P2 P3 P4 P5 P6 P7 P8 P9]. unfold dispatch. rewrite <- P2, <- P3, <- P4, <- P5, <- P6, <- P7, <- P8, <- P9.
  eapply agree_bind; [apply index_sim; exact P1|]. intros [a|] [b|] _ _ Hab; cbn in Hab; try contradiction; [|exact I].
  eapply agree_bind; [apply (set_index_sim (orel rps)) with (x := None) (y := None); [exact P1|exact I]|]. intros l l' _ _ Hl. cbv zeta.
  destruct (get_cur_maxsize _ _ _ _ _ _ _) as [cur| |]; cbn [bind]; try exact I. cbn. split; [split; auto|split; cbn; auto].
Qed.
Lemma with_order_sim st st' g : rst st st' -> rst (with_order st g) (with_order st' g).
Proof. intros [P1 P2 P3 P4 P5 P6 P7 P8 P9]. split; auto. Qed.

Definition rco (a b : @coord T) : Prop := rst (co_st a) (co_st b) /\ co_left a = co_left b /\ co_tasks a = co_tasks b /\ Forall2 rtask (co_flight a) (co_flight b).

Lemma cstep_sim nw c1 c1' e c2 : live_co S0 d bl B c1 -> rco c1 c1' -> cstep S0 d bl nw c1 e c2 -> exists c2', cstep S0 d' bl nw c1' e c2' /\ rco c2 c2'.
Proof.
  intros (Hst & Hfl & Ht) (R1 & R2 & R3 & R4) Hc. destruct c1' as [st' n' tasks' fl']. cbn [co_st co_left co_tasks co_flight] in *.
  inversion Hc; subst; cbn [co_st co_left co_tasks co_flight] in *.
  - subst. inversion R4; subst. pose proof (rst_order _ _ R1) as Eo. pose proof (f2len _ _ _ (rst_pops _ _ R1)) as El. rewrite Eo, El in H.
    eexists. split; [apply CNew; exact H|]. split; [apply with_order_sim; auto|cbn; auto].
  - subst. pose proof (dispatch_sim st st' i R1) as Hd. rewrite H0 in Hd. destruct (dispatch S0 st' i) as [[q|]| |] eqn:Ed; cbn in Hd; try contradiction.
    eexists. split; [apply CSkip; [rewrite <- (f2len _ _ _ R4); auto|auto]|]. split; cbn; auto.
  - subst. pose proof (dispatch_sim st st' i R1) as Hd. rewrite H0 in Hd. destruct (dispatch S0 st' i) as [[[q u]|]| |] eqn:Ed; cbn in Hd; try contradiction.
    destruct Hd as [Hd1 Hd2]. pose proof Hd2 as (_ & Ecur & _). rewrite Ecur. eexists. split; [apply CDispatch; [rewrite <- (f2len _ _ _ R4); auto|exact Ed]|].
    split; [exact Hd1|]. cbn. split; auto. split; auto. apply Forall2_app; auto.
  - subst. apply Forall2_app_inv_l in R4 as (g1 & g23 & G1 & G2 & ->). inversion G2 as [|? u ? g2 Hu Hg2]; subst.
    pose proof (execute_sim t u (Hfl t ltac:(apply in_or_app; right; left; auto)) Hu) as Hx. rewrite H0 in Hx.
    destruct (execute_task S0 d' bl u) as [r'| |] eqn:Ex; cbn in Hx; try contradiction.
    pose proof (apply_result_sim st st' r r' R1 Hx) as Ha. rewrite H1 in Ha. destruct (apply_task_result S0 st' r') as [st2'| |] eqn:Ea; cbn in Ha; try contradiction.
    pose proof Hu as (Eidx & _). rewrite Eidx. eexists. split.
    + eapply CDeliver; [|exact Ex|exact Ea]. destruct H as [H|H]; [left|right; auto]. rewrite app_length in *. cbn [List.length] in *. rewrite <- (f2len _ _ _ G1), <- (f2len _ _ _ Hg2). auto.
    + split; [exact Ha|]. cbn. split; auto. split; auto. apply Forall2_app; auto.
Qed.
Lemma csteps_sim nw c1 es c2 : csteps S0 d bl nw c1 es c2 -> forall c1', live_co S0 d bl B c1 -> rco c1 c1' -> exists c2', csteps S0 d' bl nw c1' es c2' /\ rco c2 c2'.
Proof.
  induction 1 as [c|c1 e c2 es c3 H1 H2 IH]; intros c1' Hl Hr; [exists c1'; split; [constructor|auto]|].
  destruct (cstep_sim nw c1 c1' e c2 Hl Hr H1) as (c2' & K1 & K2). destruct (IH c2') as (c3' & K3 & K4); auto; [eapply cstep_live; eauto|]. exists c3'. split; auto. econstructor; eauto.
Qed.

(** *** The start *)
Definition rinit (a b : list (member T) * evo_st T * hof T) : Prop := fst (fst a) = fst (fst b) /\ res_ (snd (fst a)) (snd (fst b)) /\ snd a = snd b.
Lemma init_members_sim : forall n s s' h, res_ s s' -> agree rinit (init_members S0 n d bl s h) (init_members S0 n d' bl s' h).
Proof.
  induction n as [|n IH]; intros s s' h (Q1 & Q2 & Q3 & Q4); cbn [init_members]; [cbn; split; auto; split; [split; auto|auto]|]. rewrite nf_eq, <- Q1, <- Q3, <- Q4.
  destruct (random_expr_append_ops _ _ _ _ _ _ _) as [[e g]| |] eqn:Ee; cbn [bind]; try exact I.
  destruct (from_expr _ _ _ _ _ _) as [m| |] eqn:Em; cbn [bind]; try exact I. pose proof (new_wf S0 d B HS _ _ _ Ee) as Hw.
  assert (Hgm : good E nf B m) by (apply from_expr_frame in Em as (_ & _ & _ & I4 & I5); split; [rewrite I4; auto|unfold plan_fresh; rewrite I4; exact I5]).
  eapply agree_bind; [apply evaluate_sim; eauto|]. intros [[m1 w1] o1] [[m2 w2] o2] _ _ (Hm & _ & Hw1). cbn [fst snd] in *. subst m2.
  destruct (consider _ _ _ _ _ _ _ _) as [h1| |]; cbn [bind]; try exact I.
  eapply agree_bind; [apply IH; split; [reflexivity|cbn; auto]|]. intros [[l1 s1] h2] [[l2 s2] h3] _ _ (Hl & Hs & Hh2). cbn [fst snd] in *. subst. cbn. split; auto.
Qed.
Lemma init_pops_sim : forall n i h, agree (fun a b => Forall2 rps (fst a) (fst b) /\ snd a = snd b) (init_pops S0 n i d bl h) (init_pops S0 n i d' bl h).
Proof.
  induction n as [|n IH]; intros i h; cbn [init_pops]; [cbn; auto|]. cbv zeta.
  eapply agree_bind; [apply init_members_sim; split; [reflexivity|cbn; split; [split; (split; cbn; [apply fill_length|reflexivity])|auto]]|].
  intros [[l1 s1] h1] [[l2 s2] h2] _ _ (Hl & Hs & Hh1). cbn [fst snd] in *. subst l2 h2.
  eapply agree_bind; [apply IH|]. intros [q1 h3] [q2 h4] _ _ [Hq Hh3]. cbn [fst snd] in *. subst h4. cbn. split; auto. constructor; auto. split; auto. split; auto. split; constructor.
Qed.
Lemma init_sim : agree rst (init_search S0 d bl) (init_search S0 d' bl).
Proof.
  unfold init_search. eapply agree_bind; [apply init_pops_sim|]. intros [ps h] [ps' h'] _ _ [Hps Hh']. cbn [fst snd] in *. subst h'.
  assert (Em : map ps_pop ps = map ps_pop ps') by (clear -Hps; induction Hps as [|a b l l' Hab _ IH]; cbn; auto; rewrite IH; f_equal; apply Hab).
  rewrite <- Em. destruct (init_best S0 _ None) as [best| |]; cbn [bind]; try exact I.
  eapply agree_bind with (R := eq).
  { destruct best as [m|]; [reflexivity|]. destruct Hps as [|a b l l' Hab _]; [exact I|]. cbn [nth_error expect bind]. destruct Hab as [-> _]. apply agree_eq. }
  intros b1 b2 _ _ <-.
  assert (Es : mapM (fun p => best_sub_pop F (ps_pop p) (sc_topn S0)) ps = mapM (fun p => best_sub_pop F (ps_pop p) (sc_topn S0)) ps').
  { clear -Hps. induction Hps as [|a b l l' Hab _ IH]; cbn [mapM]; auto. destruct Hab as [-> _]. rewrite IH. reflexivity. }
  rewrite <- Es. destruct (mapM _ ps) as [subs| |]; cbn [bind]; try exact I. cbn. split; auto. cbn.
  clear -Hps. induction Hps; cbn; constructor; auto.
Qed.

(** *** The engine *)
Definition ren (a b : @engine T) : Prop :=
  rst (en_st a) (en_st b) /\ en_data a = d /\ en_data b = d' /\ en_bl a = bl /\ en_bl b = bl /\ en_iter a = en_iter b /\ en_tasks a = en_tasks b /\ en_next a = en_next b
  /\ live_st S0 d bl B (en_st a) /\ forall i, In i (en_tasks a) -> i < sc_populations S0.
Lemma prepare_sim a b : ren a b -> agree ren (prepare_iteration S0 a) (prepare_iteration S0 b).
Proof.
  intros H. pose proof H as (R1 & R2 & R3 & R4 & R5 & R6 & R7 & R8 & R9 & R10). unfold prepare_iteration. rewrite <- R6, <- R7, <- R8. destruct (_ <=? _); [exact H|]. destruct (_ && _); [exact H|].
  cbv zeta. rewrite <- (rst_order _ _ R1), <- (f2len _ _ _ (rst_pops _ _ R1)).
  destruct (C36_shuffle_is_permutation (ss_order (en_st a)) (seq 0 (List.length (ss_pops (en_st a))))) as (o & g & E1 & HP). rewrite E1. cbn [bind agree].
  split; [apply with_order_sim; auto|]. cbn. split; auto. split; auto. split; auto. split; auto. split; [lia|]. split; auto. split; auto. split; [apply with_order_live; auto|].
  intros i Hi. rewrite <- HP in Hi. apply in_seq in Hi. rewrite (ls_pops _ _ _ _ _ R9) in Hi. lia.
Qed.
Lemma step_one_sim a b : ren a b -> agree (fun p q => ren (fst p) (fst q) /\ snd p = snd q) (step_one_cycle S0 a) (step_one_cycle S0 b).
Proof.
  intros H. assert (Hfin : forall x y, ren x y -> is_finished S0 x = is_finished S0 y) by (intros x y (R1 & _); unfold is_finished; rewrite (rst_completed _ _ R1); auto).
  unfold step_one_cycle. rewrite <- (Hfin a b H). destruct (is_finished S0 a); [cbn; auto|].
  eapply agree_bind; [apply prepare_sim; exact H|]. intros a1 b1 _ _ H1. rewrite <- (Hfin _ _ H1). destruct (is_finished S0 a1); [cbn; auto|].
  pose proof H1 as (R1 & R2 & R3 & R4 & R5 & R6 & R7 & R8 & R9 & R10). rewrite <- R7, <- R8. unfold index at 1 2.
  destruct (nth_error (en_tasks a1) (en_next a1)) as [i|] eqn:Ei; cbn [expect bind]; [|exact I]. cbv zeta. pose proof (R10 i (nth_error_In _ _ Ei)) as Hi.
  eapply agree_bind; [apply dispatch_sim; exact R1|]. intros [[st t]|] [[st' t']|] Ed _ Hd; cbn in Hd; try contradiction.
  - destruct Hd as [Hd1 Hd2]. apply (proj2 (dispatch_live S0 d bl B L _ i R9 Hi)) in Ed as [Ls Lt]. rewrite R2, R3, R4, R5.
    eapply agree_bind; [apply execute_sim; [exact Lt|exact Hd2]|]. intros r r' Er _ Hr. apply (proj2 (execute_live S0 d bl B L t Lt)) in Er as Lr.
    eapply agree_bind; [apply apply_result_sim; [exact Hd1|exact Hr]|]. intros st2 st2' Ea _ Hs. destruct (apply_live S0 d bl B L st r Ls Lr) as (st3 & Ea' & L3). rewrite Ea in Ea'. injection Ea' as <-.
    cbn. split; auto. split; [exact Hs|]. cbn. repeat (split; auto).
  - cbn. split; auto. split; [exact R1|]. cbn. repeat (split; auto).
Qed.
Lemma step_loop_sim : forall n a b c, ren a b -> agree (fun p q => ren (fst p) (fst q) /\ snd p = snd q) (step_loop S0 n a c) (step_loop S0 n b c).
Proof.
  induction n as [|n IH]; intros a b c H; cbn [step_loop]; [cbn; auto|]. eapply agree_bind; [apply step_one_sim; exact H|]. intros [a1 m1] [b1 m2] _ _ [H1 Hm]. cbn [fst snd] in *. subst m2.
  destruct m1; [apply IH; auto|cbn; auto].
Qed.
Lemma run_loop_sim : forall n a b, ren a b -> agree ren (run_loop S0 n a) (run_loop S0 n b).
Proof.
  induction n as [|n IH]; intros a b H; cbn [run_loop]; [exact I|]. eapply agree_bind; [apply step_one_sim; exact H|]. intros [a1 m1] [b1 m2] _ _ [H1 Hm]. cbn [fst snd] in *. subst m2.
  destruct m1; [apply IH; auto|exact H1].
Qed.
End Sim.

Lemma baseline_sim {T W} (S0 : search_cfg T W) (d d' : dataset T) B : live S0 d B -> live S0 d' B -> same_view (eo_C (sc_E S0)) (wf_expr (sc_E S0) (ds_n_features d) B) d d' ->
  baseline_for S0 d = baseline_for S0 d'.
Proof.
  intros L L' V. unfold baseline_for. destruct (ec_use_baseline (eo_C (sc_E S0))) eqn:Eu; [|reflexivity]. destruct (lv_baseline _ _ _ L Eu) as [HD Hz].
  destruct (lv_data _ _ _ L) as (Hd & Hn & Hf). destruct (lv_data _ _ _ L') as (Hd' & Hn' & Hf'). set (C := eo_C (sc_E S0)) in *.
  assert (Hpr : forall x, predictions C x (zero_expr (ec_F C)) (TConst 0) = map (fun _ => fzero (ec_F C)) (seq 0 (ds_n_rows x))) by (intros x; reflexivity).
  assert (Hw : wf_expr (sc_E S0) (ds_n_features d) B (zero_expr (ec_F C))).
  { exists (TConst 0). pose proof (sk_one _ _ _ (lv_ok _ _ _ L)). split; [reflexivity|]. split; [cbn; lia|]. cbn. lia. }
  assert (Hc : completes C d (zero_expr (ec_F C)) (TConst 0)) by (split; [intros; reflexivity|intros i [= <-]; exact Hz]).
  pose proof (sv_loss _ _ _ _ V _ (TConst 0) Hw eq_refl Hc) as Hl. rewrite !Hpr in Hl.
  destruct (proj1 (lv_loss _ _ _ L d Hd) (map (fun _ => fzero (ec_F C)) (seq 0 (ds_n_rows d)))) as [l El]; [now rewrite map_length, seq_length|]. fold C in El.
  rewrite (C34_baseline T C d l), (C34_baseline T C d' l); auto. rewrite <- Hl. exact El.
Qed.
