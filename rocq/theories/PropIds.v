(** Property C39: members have distinct ids. *)
From Coq Require Import Permutation QArith.
From Verif Require Import Base BaseLemmas Node Tree Compile Eval Deriv Rng Registry Mutation Complexity Member PropHof Selection SelectionProofs PropSelection
  Simplify Conditioning Dataset Loss PropLoss Num Optim PropOptim ConstOpt Frames Evolution PropEvolution Search PropSearch.
Local Open Scope nat_scope.

(** ** Specification *)

(** From ids [l] with counter [n] to ids [l'] with counter [n']: the counter does not go back; if the ids were distinct and below the counter they
    still are, and each id is an old one or one that was never given out before. *)
Definition renewed (n : nat) (l : list nat) (n' : nat) (l' : list nat) : Prop :=
  n <= n' /\ (NoDup l -> (forall i, In i l -> i < n) -> NoDup l' /\ forall i, In i l' -> In i l \/ n <= i < n').

Lemma renewed_refl n l : renewed n l n l.
Proof. split; auto. Qed.
Lemma renewed_more n l n' : n <= n' -> renewed n l n' l.
Proof. split; auto. Qed.
Lemma renewed_trans n l n1 l1 n2 l2 : renewed n l n1 l1 -> renewed n1 l1 n2 l2 -> renewed n l n2 l2.
Proof.
  intros [A1 A2] [B1 B2]. split; [lia|]. intros Hn Hb. destruct (A2 Hn Hb) as [Hn1 Hi1].
  destruct (B2 Hn1) as [Hn2 Hi2]. { intros i Hi. apply Hi1 in Hi as [Hi|]; [apply Hb in Hi|]; lia. }
  split; auto. intros i Hi. apply Hi2 in Hi as [Hi|]; [apply Hi1 in Hi as [|]; auto; right; lia|right; lia].
Qed.

Lemma NoDup_upd (l : list nat) p x : NoDup l -> ~ In x l -> NoDup (upd l p x).
Proof.
  revert p. induction l as [|y l IH]; intros [|p] Hn Hx; cbn; auto.
  - inversion Hn; subst. constructor; auto. intros H. apply Hx. right. auto.
  - inversion Hn as [|? ? Hy Hl]; subst. constructor; [|apply IH; auto; intros H; apply Hx; right; auto].
    intros Hi. apply in_upd in Hi as [Hi| ->]; auto. apply Hx. left. reflexivity.
Qed.
Lemma map_upd {A B} (f : A -> B) l p x : map f (upd l p x) = upd (map f l) p (f x).
Proof. revert p. induction l as [|y l IH]; intros [|p]; cbn; auto. f_equal. auto. Qed.
Lemma renewed_upd n l p : renewed n l (n + 1) (upd l p n).
Proof.
  split; [lia|]. intros Hn Hb. split.
  - apply NoDup_upd; auto. intros Hi. apply Hb in Hi. lia.
  - intros i Hi. apply in_upd in Hi as [| ->]; auto. right. lia.
Qed.

Section Ids.
Context {T : Type} (E : evo_cfg T).
Definition ids (pop : list (member T)) : list nat := map m_id pop.

Lemma set_index_ids (pop : list (member T)) i m pop' n : set_index pop i m = Ok pop' -> m_id m = n -> renewed n (ids pop) (n + 1) (ids pop').
Proof.
  unfold set_index. destruct (i <? List.length pop); [|discriminate]. intros [= <-] <-. unfold ids. rewrite map_upd. apply renewed_upd.
Qed.

Lemma copy_parent_id id b (m : member T) nf m' : copy_parent E id b m nf = Ok m' -> m_id m' = id.
Proof. unfold copy_parent. intros H. apply bind_ok in H as (baby & Hb & H). injection H as <-. apply from_expr_frame in Hb as (I1 & _). auto. Qed.
Lemma evaluate_id (C : eval_cfg T) m d bl ev m' ev' ok : evaluate C m d bl ev = Ok (m', ev', ok) -> m_id m' = m_id m.
Proof. intros H. apply evaluate_frame in H as (c & l & k & -> & _). reflexivity. Qed.

Lemma next_generation_id s m d bl temp cur st baby acc k s' :
  next_generation E s m d bl temp cur st = Ok (baby, acc, k, s') -> m_id baby = es_id s /\ es_id s' = es_id s + 1.
Proof.
  intros H. unfold next_generation in H. cbv zeta in H. apply bind_ok in H as ([c g] & _ & H). apply bind_ok in H as ([[[found evals] g1] ev1] & _ & H).
  destruct found as [[tree [|]]|].
  - apply bind_ok in H as (b1 & H1 & H). apply bind_ok in H as (b2 & H2 & H). apply bind_ok in H as (cx & _ & H). injection H as <- _ _ <-.
    apply from_expr_frame in H1 as (I1 & _). unfold rebuild_plan in H2. apply bind_ok in H2 as (p & _ & H2). injection H2 as <-. cbn. auto.
  - apply bind_ok in H as (b1 & H1 & H). apply from_expr_frame in H1 as (I1 & _). apply bind_ok in H as ([[b2 ev2] ok] & H2 & H). apply evaluate_id in H2.
    destruct (_ || _).
    + apply bind_ok in H as (rj & Hr & H). injection H as <- _ _ <-. apply copy_parent_id in Hr. cbn. auto.
    + apply bind_ok in H as (prob & _ & H). destruct (rng_real g1) as [u g2]. destruct (fltb _ prob u).
      * apply bind_ok in H as (rj & Hr & H). injection H as <- _ _ <-. apply copy_parent_id in Hr. cbn. auto.
      * injection H as <- _ _ <-. cbn. split; congruence.
  - apply bind_ok in H as (rj & Hr & H). injection H as <- _ _ <-. apply copy_parent_id in Hr. cbn. auto.
Qed.
Lemma crossover_ids d bl cur m1 m2 : forall n s b1 b2 acc k s', crossover_loop E n s m1 m2 d bl cur = Ok (b1, b2, acc, k, s') ->
  if acc then m_id b1 = es_id s /\ m_id b2 = es_id s + 1 /\ es_id s' = es_id s + 1 + 1 else b1 = m1 /\ b2 = m2 /\ es_id s' = es_id s.
Proof.
  induction n as [|n IH]; intros s b1 b2 acc k s' H; cbn [crossover_loop] in H; [injection H as <- <- <- _ <-; auto|].
  apply bind_ok in H as ([[c1 c2] g] & _ & H). apply bind_ok in H as (ok1 & _ & H). apply bind_ok in H as (ok & _ & H).
  destruct ok; [|apply IH in H; exact H]. cbv zeta in H. apply bind_ok in H as (y1 & H1 & H). apply bind_ok in H as (y2 & H2 & H).
  apply bind_ok in H as ([[z1 ev1] o1] & H3 & H). apply bind_ok in H as ([[z2 ev2] o2] & H4 & H). injection H as <- <- <- _ <-.
  apply from_expr_frame in H1 as (I1 & _). apply from_expr_frame in H2 as (I2 & _). apply evaluate_id in H3, H4. cbn. split; [congruence|]. split; [congruence|lia].
Qed.

Lemma evol_step_ids pop s d bl temp cur st pop' s' k : eo_skip_failures E = true ->
  evol_step E pop s d bl temp cur st = Ok (pop', s', k) -> renewed (es_id s) (ids pop) (es_id s') (ids pop').
Proof.
  intros Hsk H. unfold evol_step in H. destruct (rng_real (es_rng s)) as [u g]. rewrite Hsk in H. destruct (fgtb _ u _).
  - apply bind_ok in H as ([a g1] & _ & H). apply bind_ok in H as ([[[b acc] k1] s1] & Hn & H). apply next_generation_id in Hn as [Hb Hs]. cbn in Hb, Hs.
    destruct acc; cbn [negb andb] in H.
    + apply bind_ok in H as (p1 & Hr & H). injection H as <- <- _. rewrite Hs. unfold replace_oldest in Hr. apply bind_ok in Hr as (i & _ & Hr).
      eapply set_index_ids; eauto.
    + injection H as <- <- _. apply renewed_more. lia.
  - apply bind_ok in H as ([a1 g1] & _ & H). apply bind_ok in H as ([a2 g2] & _ & H). apply bind_ok in H as ([[[[b1 b2] acc] k1] s1] & Hn & H).
    apply crossover_ids in Hn. destruct acc; cbn [negb andb] in H; cbn in Hn.
    + destruct Hn as (H1 & H2 & Hs). apply bind_ok in H as (p1 & Hr & H). injection H as <- <- _. rewrite Hs.
      unfold replace_two_oldest in Hr. apply bind_ok in Hr as ([i j] & _ & Hr). apply bind_ok in Hr as (p2 & Hp2 & Hr).
      eapply renewed_trans; [eapply set_index_ids|eapply set_index_ids]; eauto.
    + destruct Hn as (_ & _ & Hs). injection H as <- <- _. apply renewed_more. lia.
Qed.
Lemma evol_steps_ids d bl temp cur st : eo_skip_failures E = true -> forall n pop s ev pop' s' k,
  evol_steps E n pop s d bl temp cur st ev = Ok (pop', s', k) -> renewed (es_id s) (ids pop) (es_id s') (ids pop').
Proof.
  intros Hsk. induction n as [|n IH]; intros pop s ev pop' s' k H; cbn [evol_steps] in H; [injection H as <- <- _; apply renewed_refl|].
  apply bind_ok in H as ([[p1 s1] k1] & H1 & H). apply evol_step_ids in H1; auto. eapply renewed_trans; eauto.
Qed.
Lemma sr_cycles_ids d bl cur st n : eo_skip_failures E = true -> forall idx pop s best ev pop' s' best' k,
  sr_cycles E idx n pop s best d bl cur st ev = Ok (pop', s', best', k) -> renewed (es_id s) (ids pop) (es_id s') (ids pop').
Proof.
  intros Hsk. induction idx as [|i idx IH]; intros pop s best ev pop' s' best' k H; cbn [sr_cycles] in H; [injection H as <- <- _ _; apply renewed_refl|].
  apply bind_ok in H as ([[p1 s1] k1] & H1 & H). apply bind_ok in H as (b1 & _ & H). apply evol_steps_ids in H1; auto. eapply renewed_trans; eauto.
Qed.

(** The second half of an iteration keeps all ids, and a member that the optimiser changes keeps its id. *)
Lemma simplify_ids nf : forall ms ms', mapM (simplify_member E nf) ms = Ok ms' -> ids ms' = ids ms.
Proof.
  induction ms as [|m ms IH]; intros ms' H; cbn in H; [injection H as <-; auto|]. apply bind_ok in H as (m' & H1 & H). apply bind_ok in H as (ms1 & H2 & H). injection H as <-.
  cbn. f_equal; [|apply IH; auto]. unfold simplify_member in H1. apply bind_ok in H1 as ([e ch] & _ & H1). cbv zeta in H1. destruct ch; [|injection H1 as <-; auto].
  unfold rebuild_plan in H1. apply bind_ok in H1 as (p & _ & H1). injection H1 as <-. reflexivity.
Qed.
Lemma optimize_ids d bl : forall ms s gc ev ms' s' gc' k, optimize_members E ms s gc d bl ev = Ok (ms', s', gc', k) -> ids ms' = ids ms /\ es_id s' = es_id s.
Proof.
  induction ms as [|m ms IH]; intros s gc ev ms' s' gc' k H; cbn in H; [injection H as <- <- _ _; auto|].
  match type of H with (if ?b then _ else _) = _ => destruct b end.
  - apply bind_ok in H as ([[[[[[g1 m1] ev1] gc1] nb1] imp] k1] & Eo & H). apply bind_ok in H as ([[[ms1 s1] gc2] k2] & E2 & H). injection H as <- <- _ _.
    apply IH in E2 as [E2 E3]. apply optimize_frame in Eo as (I1 & _). cbn in *. split; [f_equal; auto|auto].
  - apply bind_ok in H as ([[[ms1 s1] gc2] k2] & E2 & H). injection H as <- <- _ _. apply IH in E2 as [E2 E3]. cbn in *. split; [f_equal; auto|auto].
Qed.
Lemma evaluate_ids d bl : forall ms ev ms' ev', evaluate_members E ms ev d bl = Ok (ms', ev') -> ids ms' = ids ms.
Proof.
  induction ms as [|m ms IH]; intros ev ms' ev' H; cbn in H; [injection H as <- _; auto|].
  apply bind_ok in H as ([[m1 ev1] ok] & E1 & H). apply bind_ok in H as ([ms1 ev2] & E2 & H). injection H as <- _. apply evaluate_id in E1. apply IH in E2. cbn. f_equal; auto.
Qed.
Lemma second_half_ids pop s gc full d bl pop' s' gc' k :
  optimize_and_simplify_population E pop s gc full d bl = Ok (pop', s', gc', k) -> ids pop' = ids pop /\ es_id s' = es_id s.
Proof.
  intros H. unfold optimize_and_simplify_population in H. apply bind_ok in H as (p1 & E1 & H). apply bind_ok in H as ([[[p2 s2] gc2] k2] & E2 & H).
  apply bind_ok in H as ([p3 ev3] & E3 & H). injection H as <- <- _ _. cbn [es_id]. apply evaluate_ids in E3.
  assert (I1 : ids p1 = ids pop) by (destruct (eo_simplify E); [eapply simplify_ids; eauto|injection E1 as <-; auto]).
  destruct (oc_enabled (eo_opt E) && _).
  - apply optimize_ids in E2 as [I2 I3]. cbn in I3. split; congruence.
  - injection E2 as <- <- _ _. split; congruence.
Qed.

(** Migration gives each copy the next id. *)
Lemma migrate_loop_ids {W} (migrants : list (member T)) : forall n ms (r : rng W) id b ms' r' id' b',
  migrate_loop n ms migrants r id b = Ok (ms', r', id', b') -> renewed id (ids ms) id' (ids ms').
Proof.
  induction n as [|n IH]; intros ms r id b ms' r' id' b' H; cbn [migrate_loop] in H; [injection H as <- _ <- _; apply renewed_refl|].
  apply bind_ok in H as ([loc r1] & _ & H). apply bind_ok in H as ([k r2] & _ & H). apply bind_ok in H as (src & _ & H). cbv zeta in H.
  apply bind_ok in H as (ms1 & Hs & H). apply IH in H. eapply renewed_trans; [|exact H]. eapply set_index_ids; eauto.
Qed.
Lemma migrate_into_ids {W} (FW : FloatOps W) of_nat poisson ms (migrants : list (member T)) frac (r : rng W) id b ms' r' id' b' :
  migrate_into FW of_nat poisson ms migrants frac r id b = Ok (ms', r', id', b') -> renewed id (ids ms) id' (ids ms').
Proof.
  unfold migrate_into. intros H. destruct migrants as [|m0 mig]; [injection H as <- _ <- _; apply renewed_refl|].
  destruct (fleb _ _ _); [injection H as <- _ <- _; apply renewed_refl|]. destruct ms as [|m1 ms]; [injection H as <- _ <- _; apply renewed_refl|].
  cbv zeta in H. destruct (negb _); [injection H as <- _ <- _; apply renewed_refl|]. destruct (poisson r _) as [n r1].
  destruct (_ =? 0); [injection H as <- _ <- _; apply renewed_refl|]. eapply migrate_loop_ids; eauto.
Qed.
End Ids.

Section SearchIds.
Context {T W : Type} (S0 : search_cfg T W).
Local Notation npop := (sc_populations S0).
Definition counter (ps : pop_state T) : nat := es_id (ps_st ps).
Definition pids (ps : pop_state T) : list nat := map m_id (ps_pop ps).
Definition prenewed (ps ps' : pop_state T) : Prop := renewed (counter ps) (pids ps) (counter ps') (pids ps').

Lemma phase_ids full ps d ps' : phase S0 full ps = Ok (d, ps') -> ps_pop ps' = ps_pop ps /\ counter ps' = counter ps.
Proof.
  unfold phase. destruct (sc_batching S0); [|intros [= _ <-]; auto]. destruct (_ =? 0); [discriminate|]. cbv zeta. intros H.
  apply bind_ok in H as (b & _ & H). apply bind_ok in H as ([b1 g] & _ & H). injection H as _ <-. auto.
Qed.
Lemma execute_ids full bl t r : eo_skip_failures (sc_E S0) = true -> execute_task S0 full bl t = Ok r -> prenewed (tk_pop t) (tr_pop r).
Proof.
  intros Hsk H. unfold execute_task in H. apply bind_ok in H as ([d1 ps1] & H1 & H). apply bind_ok in H as ([[[p1 s1] h1] k1] & H2 & H).
  apply bind_ok in H as ([d2 ps2] & H3 & H). apply bind_ok in H as ([[[p2 s2] gc] k2] & H4 & H). apply bind_ok in H as (sub & _ & H).
  injection H as <-. unfold prenewed, pids, counter. cbn. apply phase_ids in H1 as [P1 C1]. apply phase_ids in H3 as [P3 C3]. cbn in P3. unfold counter in *. cbn in C3.
  apply second_half_ids in H4 as [I4 C4]. unfold s_r_cycle in H2. apply bind_ok in H2 as (b & _ & H2). apply sr_cycles_ids in H2; auto.
  rewrite P1, C1 in H2. unfold ids in *. rewrite C4, I4, P3, C3. exact H2.
Qed.
Lemma migrate_ids ps mig frac ps' : migrate S0 ps mig frac = Ok ps' -> prenewed ps ps'.
Proof.
  unfold migrate. intros H. apply bind_ok in H as ([[[pop g] id] b] & H1 & H). injection H as <-. apply migrate_into_ids in H1. exact H1.
Qed.
Lemma apply_ids st r st' : apply_task_result S0 st r = Ok st' -> exists ps, nth_error (ss_pops st') (tr_idx r) = Some (Some ps) /\ prenewed (tr_pop r) ps
  /\ (forall j, j <> tr_idx r -> nth_error (ss_pops st') j = nth_error (ss_pops st) j).
Proof.
  unfold apply_task_result. cbv zeta. intros H. apply bind_ok in H as (subs & H1 & H). apply bind_ok in H as (x & H2 & H). apply bind_ok in H as (h1 & H3 & H).
  apply bind_ok in H as ([h2 b] & H4 & H). apply bind_ok in H as (ps1 & H5 & H). apply bind_ok in H as (ps2 & H6 & H). apply bind_ok in H as (pops & H7 & H).
  injection H as <-. cbn. unfold set_index in H7. destruct (Nat.ltb_spec (tr_idx r) (List.length (ss_pops st))); [|discriminate]. injection H7 as <-.
  exists ps2. split; [apply nth_error_upd_same; auto|]. split; [|intros j Hj; apply nth_error_upd_other; auto].
  assert (P1 : prenewed (tr_pop r) ps1) by (destruct (sc_migration S0); [eapply migrate_ids; eauto|injection H5 as <-; apply renewed_refl]).
  assert (P2 : prenewed ps1 ps2) by (destruct (sc_hof_migration S0); [eapply migrate_ids; eauto|injection H6 as <-; apply renewed_refl]).
  eapply renewed_trans; eauto.
Qed.

(** Where the population numbered [i] is: at home or in a task. *)
Definition located (c : @coord T) (i : nat) (ps : pop_state T) : Prop :=
  nth_error (ss_pops (co_st c)) i = Some (Some ps) \/ exists t, In t (co_flight c) /\ tk_idx t = i /\ tk_pop t = ps.

(** Ids of population [i]: distinct, from its own block. *)
Definition block (i : nat) (ps : pop_state T) : Prop :=
  NoDup (pids ps) /\ forall x, In x (pids ps) -> i * sc_stride S0 <= x < counter ps.

Lemma block_renewed i ps ps' : block i ps -> i * sc_stride S0 <= counter ps -> prenewed ps ps' -> block i ps' /\ counter ps <= counter ps'.
Proof.
  intros [Hn Hb] Hc [Hle Hr]. destruct (Hr Hn) as [Hn' Hi]; [intros x Hx; apply Hb in Hx; lia|]. split; auto. split; auto.
  intros x Hx. apply Hi in Hx as [Hx|Hx]; [apply Hb in Hx|]; lia.
Qed.

(** One action of the coordinator, seen from population [i]. *)
Lemma cstep_located full bl nw c1 e c2 es : eo_skip_failures (sc_E S0) = true -> coord_ok S0 nw c1 es -> cstep S0 full bl nw c1 e c2 -> forall i ps', i < npop -> located c2 i ps' ->
  exists ps, located c1 i ps /\ prenewed ps ps'.
Proof.
  intros Hsk Hok Hs i ps' Hi Hl. inversion Hs; subst.
  - exists ps'. split; [exact Hl|apply renewed_refl].
  - exists ps'. split; [exact Hl|apply renewed_refl].
  - pose proof (dispatch_some S0 _ _ _ _ H0) as (D1 & D2 & D3 & _). exists ps'. split; [|apply renewed_refl].
    destruct Hl as [Hl|(t0 & Hin & H1 & H2)]; cbn [co_st co_flight] in *.
    + left. cbn. rewrite D3 in Hl. apply nth_error_upd_cases in Hl as [[_ Hc]|[_ Hl]]; [discriminate|auto].
    + apply in_app_or in Hin as [Hin|[<-|[]]]; [right; exists t0; auto|]. left. cbn [co_st]. rewrite <- H1, <- H2, D2. exact D1.
  - pose proof (execute_idx S0 _ _ _ _ H0) as [He _]. pose proof (execute_ids _ _ _ _ Hsk H0) as Hr. pose proof (apply_ids _ _ _ H1) as (ps & A1 & A2 & A3). rewrite He in *.
    assert (Hnd : NoDup (map tk_idx (fl1 ++ t :: fl2))).
    { destruct Hok. cbn in ck_nodup. clear - ck_nodup. induction (map tk_idx (fl1 ++ t :: fl2)); [constructor|]. cbn in ck_nodup. inversion ck_nodup; subst. constructor; auto. intros Hn. apply H1, in_or_app. auto. }
    destruct (Nat.eq_dec i (tk_idx t)) as [->|Hne].
    + exists (tk_pop t). split; [right; exists t; cbn; split; [apply in_or_app; right; left; auto|auto]|].
      destruct Hl as [Hl|(t0 & Hin & E1 & E2)]; cbn [co_st co_flight] in *.
      * rewrite A1 in Hl. injection Hl as <-. eapply renewed_trans; eauto.
      * exfalso. rewrite map_app in Hnd. cbn in Hnd. apply NoDup_remove_2 in Hnd. apply Hnd. rewrite <- map_app, <- E1. apply in_map. auto.
    + exists ps'. split; [|apply renewed_refl]. destruct Hl as [Hl|(t0 & Hin & E1 & E2)]; cbn [co_st co_flight] in *.
      * left. cbn. rewrite A3 in Hl; auto.
      * right. exists t0. cbn. split; auto. apply in_app_or in Hin as [Hin|Hin]; apply in_or_app; [left|right; right]; auto.
Qed.
Lemma csteps_located full bl nw : eo_skip_failures (sc_E S0) = true -> forall c1 es c2, csteps S0 full bl nw c1 es c2 -> forall es0, coord_ok S0 nw c1 es0 ->
  forall i ps', i < npop -> located c2 i ps' -> exists ps, located c1 i ps /\ prenewed ps ps'.
Proof.
  intros Hsk. induction 1 as [c|c1 e c2 es c3 H1 _ IH]; intros es0 Hok i ps' Hi Hl.
  - exists ps'. split; auto. apply renewed_refl.
  - destruct (cstep_ok S0 full bl nw _ _ _ _ Hok H1) as [Hok2 _]. destruct (IH _ Hok2 i ps' Hi Hl) as (ps2 & L2 & R2).
    destruct (cstep_located _ _ _ _ _ _ _ Hsk Hok H1 i ps2 Hi L2) as (ps1 & L1 & R1). exists ps1. split; auto. eapply renewed_trans; eauto.
Qed.

Lemma init_members_ids d bl : forall n s h ms s' h', init_members S0 n d bl s h = Ok (ms, s', h') ->
  map m_id ms = seq (es_id s) n /\ es_id s' = es_id s + n.
Proof.
  induction n as [|n IH]; intros s h ms s' h' H; cbn [init_members] in H; [injection H as <- <- _; split; auto; lia|].
  apply bind_ok in H as ([e g] & _ & H). apply bind_ok in H as (m & H1 & H). apply bind_ok in H as ([[m1 ev] ok] & H2 & H). apply bind_ok in H as (h1 & _ & H).
  apply bind_ok in H as ([[ms1 s1] h2] & H3 & H). injection H as <- <- _. apply IH in H3 as [I3 C3]. apply evaluate_id in H2. apply from_expr_frame in H1 as (I1 & _).
  cbn in *. rewrite I3, C3, H2, I1. split; [f_equal; f_equal|]; lia.
Qed.
Lemma init_pops_ids d bl : forall n i h ps h', init_pops S0 n i d bl h = Ok (ps, h') -> forall j p, nth_error ps j = Some p ->
  pids p = seq ((i + j) * sc_stride S0) (sc_population_size S0) /\ counter p = (i + j) * sc_stride S0 + sc_population_size S0.
Proof.
  induction n as [|n IH]; intros i h ps h' H j p Hj; cbn [init_pops] in H; [injection H as <- _; destruct j; discriminate|].
  apply bind_ok in H as ([[ms s] h1] & H1 & H). apply bind_ok in H as ([ps1 h2] & H2 & H). injection H as <- _.
  destruct j as [|j].
  - cbn in Hj. injection Hj as <-. apply init_members_ids in H1 as [I1 C1]. unfold pids, counter. cbn in *. rewrite I1, C1, Nat.add_0_r. auto.
  - cbn in Hj. apply (IH _ _ _ _ H2) in Hj. rewrite <- Nat.add_succ_comm. exact Hj.
Qed.
Lemma init_ids d bl st : init_search S0 d bl = Ok st -> forall i ps, nth_error (ss_pops st) i = Some (Some ps) ->
  pids ps = seq (i * sc_stride S0) (sc_population_size S0) /\ counter ps = i * sc_stride S0 + sc_population_size S0.
Proof.
  unfold init_search. intros H. apply bind_ok in H as ([pl h] & H1 & H). apply bind_ok in H as (b & _ & H). apply bind_ok in H as (b1 & _ & H). apply bind_ok in H as (subs & _ & H).
  injection H as <-. cbn. intros i ps Hn. rewrite nth_error_map in Hn. destruct (nth_error pl i) as [p|] eqn:En; [|discriminate]. cbn in Hn. injection Hn as <-.
  apply (init_pops_ids d bl _ _ _ _ _ H1) in En. exact En.
Qed.
End SearchIds.

(** ** C39 *)

(** One population: every way of making members (a whole task: evolution, optimisation; then migration) leaves the ids distinct, and an id
    that is new in the population was never given out before. *)
Theorem C39_task_ids : forall (T W : Type) (S0 : search_cfg T W) full bl t r,
  eo_skip_failures (sc_E S0) = true -> execute_task S0 full bl t = Ok r ->
  let before := map m_id (ps_pop (tk_pop t)) in let after := map m_id (ps_pop (tr_pop r)) in
  let n := es_id (ps_st (tk_pop t)) in let n' := es_id (ps_st (tr_pop r)) in
  NoDup before -> (forall i, In i before -> i < n) ->
  n <= n' /\ NoDup after /\ forall i, In i after -> In i before \/ n <= i < n'.
Proof.
  intros T W S0 full bl t r Hsk H. pose proof (execute_ids S0 full bl t r Hsk H) as [H1 H2]. cbv zeta. intros Hn Hb. split; [exact H1|exact (H2 Hn Hb)].
Qed.

(** The whole search, any schedule: at every moment the ids of population [i] are distinct and from its block; while no block is used up, the ids of
    all populations are distinct; and an id that has left a population never comes back. *)
Theorem C39_distinct_ids : forall (T W : Type) (S0 : search_cfg T W) d bl threads st0 es c,
  eo_skip_failures (sc_E S0) = true -> sc_population_size S0 <= sc_stride S0 ->
  init_search S0 d bl = Ok st0 -> csteps S0 d bl (n_workers S0 threads) (parallel_start S0 st0) es c ->
  (forall i ps, i < sc_populations S0 -> located c i ps ->
     NoDup (map m_id (ps_pop ps)) /\ forall x, In x (map m_id (ps_pop ps)) -> i * sc_stride S0 <= x < es_id (ps_st ps))
  /\ (forall i j ps ps' x, i < sc_populations S0 -> j < sc_populations S0 -> located c i ps -> located c j ps' ->
        es_id (ps_st ps) <= (i + 1) * sc_stride S0 -> es_id (ps_st ps') <= (j + 1) * sc_stride S0 ->
        In x (map m_id (ps_pop ps)) -> In x (map m_id (ps_pop ps')) -> i = j)
  /\ (forall es' c' i ps', i < sc_populations S0 -> csteps S0 d bl (n_workers S0 threads) c es' c' -> located c' i ps' ->
        exists ps, located c i ps /\ es_id (ps_st ps) <= es_id (ps_st ps')
          /\ forall x, In x (map m_id (ps_pop ps')) -> In x (map m_id (ps_pop ps)) \/ es_id (ps_st ps) <= x < es_id (ps_st ps')).
Proof.
  intros T W S0 d bl th st0 es c Hsk Hstr Hi Hc. pose proof (init_ids S0 d bl st0 Hi) as Hids. apply init_home in Hi as (H1 & H2 & H3 & _).
  pose proof (start_ok S0 (n_workers S0 th) st0 H1 H2 H3) as Hok0.
  assert (Hblock : forall i ps, i < sc_populations S0 -> located c i ps -> block S0 i ps).
  { intros i ps Hlt Hl. destruct (csteps_located S0 d bl _ Hsk _ _ _ Hc _ Hok0 i ps Hlt Hl) as (p0 & [L0|(t & [] & _)] & R0).
    cbn in L0. apply Hids in L0 as [E1 E2]. eapply (block_renewed S0 i p0 ps); [| |exact R0].
    - unfold block. rewrite E1, E2. split; [apply seq_NoDup|]. intros x Hx. apply in_seq in Hx. lia.
    - lia. }
  split; [|split].
  - intros i ps Hlt Hl. exact (Hblock i ps Hlt Hl).
  - intros i j ps ps' x Hlti Hltj Li Lj Bi Bj Ii Ij. apply (proj2 (Hblock i ps Hlti Li)) in Ii. apply (proj2 (Hblock j ps' Hltj Lj)) in Ij. unfold counter in *. nia.
  - intros es' c' i ps' Hlt Hc' Hl. destruct (csteps_ok S0 d bl _ _ _ _ [] Hok0 Hc) as [Hok _].
    destruct (csteps_located S0 d bl _ Hsk _ _ _ Hc' _ Hok i ps' Hlt Hl) as (ps & L & [R1 R2]). exists ps. split; auto. split; auto.
    destruct (Hblock i ps Hlt L) as [Hn Hb]. apply R2; auto. intros x Hx. apply Hb in Hx. lia.
Qed.

(** Non-vacuity: the search of [C38_case] has distinct ids at its end, in block 0 and block 100. *)
Example C39_case : eo_skip_failures (sc_E (search_demo false)) = true /\ sc_population_size (search_demo false) <= sc_stride (search_demo false)
  /\ exists st0 es c, init_search (search_demo false) demo_data None = Ok st0
  /\ csteps (search_demo false) demo_data None (n_workers (search_demo false) 8) (parallel_start (search_demo false) st0) es c
  /\ ended c = (0, [], 0, 4, [Some [8; 5]; Some [107; 105]]).
Proof. split; [reflexivity|]. split; [cbn; lia|]. exact C38_case. Qed.

(** With [skip_mutation_failures] off the property fails: a crossover that finds no acceptable children gives two copies of its parents, ids included. *)
Theorem C39_without_skipping_refuted : exists a b,
  Forall (sound (evo_demo false (XF 1)) 1 9 None) [a; b] /\ NoDup (map m_id [a; b])
  /\ exists p s h k, s_r_cycle (evo_demo false (XF 1)) [a; b] evo_start demo_data None 2 evo_stats = Ok (p, s, h, k) /\ ~ NoDup (map m_id p).
Proof.
  assert (Ha : exists a, evo_member 0 0 demo_expr = Ok a) by (eexists; vm_compute; reflexivity).
  assert (Hb : exists b, evo_member 1 1 (mkExpr [Var 0; Const 0; Op 2 5] [XF 2] []) = Ok b) by (eexists; vm_compute; reflexivity).
  destruct Ha as (a & Ha). destruct Hb as (b & Hb). exists a, b. split.
  - constructor; [|constructor; [|constructor]]; eapply evo_member_sound; eauto.
    + exists (TOp 0 [TVar 0; TVar 0]). split; [reflexivity|]. cbn. repeat split; lia.
    + exists (TOp 5 [TVar 0; TConst 0]). split; [reflexivity|]. cbn. repeat split; lia.
  - vm_compute in Ha, Hb. injection Ha as <-. injection Hb as <-. split; [cbn; repeat constructor; cbn; intuition discriminate|].
    do 4 eexists. split; [vm_compute; reflexivity|]. cbn. intros H. inversion H; subst. apply H2. left. reflexivity.
Qed.
Print Assumptions C39_task_ids.
Print Assumptions C39_distinct_ids.
Print Assumptions C39_without_skipping_refuted.
