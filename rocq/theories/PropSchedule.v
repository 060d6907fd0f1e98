(** Property C68: what depends on the schedule of a parallel search, and what does not. *)
From Coq Require Import QArith Permutation.
From Verif Require Import Base BaseLemmas Node Tree Compile Eval Deriv Simplify Rng Registry Mutation Complexity ComplexitySpec PropComplexity Num Member PropHof Selection PropSelection
  Conditioning Dataset Loss PropLoss Optim PropOptim ConstOpt Evolution Frames PropEvolution Search PropSearch PropIds Ready Invariant PropWhole PropBest PropCosts PropHall Instances.
Local Open Scope nat_scope.

(** ** Specification *)

(** The populations do not exchange anything: no migration of either kind, and the statistics that all tasks feed are not used. *)
Record isolated {T W} (S0 : search_cfg T W) : Prop := {
  is_migration : sc_migration S0 = false;
  is_hof_migration : sc_hof_migration S0 = false;
  is_frequency : eo_use_frequency (sc_E S0) = false;
  is_tournament : use_frequency_in_tournament (eo_sel (sc_E S0)) = false }.

(** The order of the tasks of iteration [n], drawn from the search's own generator. *)
Fixpoint order_of {T} (npop : nat) (g : rng T) (n : nat) : res (list nat * rng T) :=
  match n with
  | 0 => shuffle g (seq 0 npop)
  | S n' => let! (_, g) := order_of npop g n' in shuffle g (seq 0 npop)
  end.

(** The history of population [i] on its own: [n] tasks one after the other, each starting from the population the previous one returned; the task of iteration [n]
    has the size limit that goes with its place in that iteration's order. [rs] are the results. *)
Inductive history {T W} (S0 : search_cfg T W) (full : dataset T) (bl : option T) (st0 : search_st T) (i : nat) : nat -> pop_state T -> list (task_result T) -> Prop :=
| HsStart ps : nth_error (ss_pops st0) i = Some (Some ps) -> history S0 full bl st0 i 0 ps []
| HsTask n ps rs order g j cur st r :
    history S0 full bl st0 i n ps rs ->
    order_of (sc_populations S0) (ss_order st0) n = Ok (order, g) -> nth_error order j = Some i ->
    get_cur_maxsize (sc_F32 S0) (sc_of32 S0) (sc_floor32 S0) (sc_warmup_by S0) (sel_maxsize (eo_sel (sc_E S0))) (total_cycles S0)
      (total_cycles S0 - (n * sc_populations S0 + j)) = Ok cur ->
    execute_task S0 full bl (mkTask i cur st ps) = Ok r ->
    history S0 full bl st0 i (S n) (tr_pop r) (rs ++ [r]).

(** ** Tasks do not look at unused statistics *)
Section Stats.
Context {T : Type} (E : evo_cfg T) (Hf : eo_use_frequency E = false) (Ht : use_frequency_in_tournament (eo_sel E) = false).

Lemma tournament_stats g pop st1 st2 : tournament E g pop st1 = tournament E g pop st2.
Proof.
  unfold tournament, best_of_sample. cbv zeta. destruct (sample_indices _ _ _ _) as [[idx g1]| |]; cbn [bind]; auto.
  assert (Em : forall l, mapM (fun i => let! m := index pop i in let! a := adjusted_cost (ec_F (eo_C E)) (oc_to (eo_opt E)) (eo_exp E) st1 (eo_sel E) m in Ok (a, i)) l
    = mapM (fun i => let! m := index pop i in let! a := adjusted_cost (ec_F (eo_C E)) (oc_to (eo_opt E)) (eo_exp E) st2 (eo_sel E) m in Ok (a, i)) l).
  { induction l as [|x l IH]; cbn [mapM]; auto. rewrite IH. destruct (index pop x); cbn [bind]; auto. unfold adjusted_cost. rewrite Ht. reflexivity. }
  rewrite Em. reflexivity.
Qed.
Lemma next_generation_stats s m d bl temp cur st1 st2 : next_generation E s m d bl temp cur st1 = next_generation E s m d bl temp cur st2.
Proof. unfold next_generation, acceptance. cbv zeta. rewrite Hf. reflexivity. Qed.
Lemma evol_step_stats pop s d bl temp cur st1 st2 : evol_step E pop s d bl temp cur st1 = evol_step E pop s d bl temp cur st2.
Proof.
  unfold evol_step. destruct (rng_real (es_rng s)) as [u g]. destruct (fgtb _ _ _); rewrite (tournament_stats g pop st1 st2); destruct (tournament E g pop st2) as [[a g1]| |]; cbn [bind]; auto.
  - now rewrite (next_generation_stats _ _ _ _ _ _ st1 st2).
  - now rewrite (tournament_stats g1 pop st1 st2).
Qed.
Lemma evol_steps_stats n : forall pop s d bl temp cur st1 st2 k, evol_steps E n pop s d bl temp cur st1 k = evol_steps E n pop s d bl temp cur st2 k.
Proof.
  induction n as [|n IH]; intros pop s d bl temp cur st1 st2 k; cbn [evol_steps]; auto. rewrite (evol_step_stats _ _ _ _ _ _ st1 st2).
  destruct (evol_step E pop s d bl temp cur st2) as [[[p1 s1] k1]| |]; cbn [bind]; auto.
Qed.
Lemma sr_cycles_stats d bl cur st1 st2 n : forall idx pop s best k, sr_cycles E idx n pop s best d bl cur st1 k = sr_cycles E idx n pop s best d bl cur st2 k.
Proof.
  induction idx as [|i idx IH]; intros pop s best k; cbn [sr_cycles]; auto. unfold reg_evol_cycle. rewrite (evol_steps_stats _ _ _ _ _ _ _ st1 st2).
  destruct (evol_steps E _ pop s d bl _ cur st2 0) as [[[p1 s1] k1]| |]; cbn [bind]; auto. destruct (update_hof E best p1 cur); cbn [bind]; auto.
Qed.
End Stats.
Lemma execute_stats {T W} (S0 : search_cfg T W) full bl i cur st1 st2 ps : isolated S0 ->
  execute_task S0 full bl (mkTask i cur st1 ps) = execute_task S0 full bl (mkTask i cur st2 ps).
Proof.
  intros [_ _ Hf Ht]. unfold execute_task, s_r_cycle. cbn [tk_pop tk_cur tk_stats tk_idx]. cbv zeta. destruct (phase S0 full ps) as [[d1 p1]| |]; cbn [bind]; auto.
  destruct (update_hof (sc_E S0) _ (ps_pop p1) cur) as [b| |]; cbn [bind]; auto. now rewrite (sr_cycles_stats (sc_E S0) Hf Ht d1 bl cur st1 st2).
Qed.

(** ** The invariant *)
Section Inv.
Context {T W : Type} (S0 : search_cfg T W) (full : dataset T) (bl : option T) (nw : nat) (st0 : search_st T) (Iso : isolated S0).
Local Notation npop := (sc_populations S0).
Local Notation hist := (history S0 full bl st0).
Local Notation order_at := (order_of npop (ss_order st0)).
Local Notation limit k := (get_cur_maxsize (sc_F32 S0) (sc_of32 S0) (sc_floor32 S0) (sc_warmup_by S0) (sel_maxsize (eo_sel (sc_E S0))) (total_cycles S0) (total_cycles S0 - k)).

Record tracked (c : @coord T) (rs : list (task_result T)) (es : list event) (f : nat -> list (task_result T)) : Prop := {
  tk_ok : coord_ok S0 nw c es;
  tk_del : delivered es = map tr_idx rs;
  tk_perm : Permutation rs (flat_map f (seq 0 npop));
  tk_pops : forall i ps, nth_error (ss_pops (co_st c)) i = Some (Some ps) -> hist i (count (map tr_idx rs) i) ps (f i);
  tk_flight : forall t, In t (co_flight c) -> hist (tk_idx t) (count (map tr_idx rs) (tk_idx t)) (tk_pop t) (f (tk_idx t))
    /\ exists o g j, order_at (count (map tr_idx rs) (tk_idx t)) = Ok (o, g) /\ nth_error o j = Some (tk_idx t)
         /\ limit (count (map tr_idx rs) (tk_idx t) * npop + j) = Ok (tk_cur t);
  tk_first : started es = 0 -> ss_order (co_st c) = ss_order st0;
  tk_order : forall b, started es = S b -> exists o, order_at b = Ok (o, ss_order (co_st c)) /\ co_tasks c = skipn (npop - List.length (co_tasks c)) o;
  tk_evals : ss_evals (co_st c) = ss_evals st0 + PropSearch.sum (map tr_evals rs) }.

Lemma apply_isolated st r st' : apply_task_result S0 st r = Ok st' ->
  ss_pops st' = upd (ss_pops st) (tr_idx r) (Some (tr_pop r)) /\ tr_idx r < List.length (ss_pops st) /\ ss_order st' = ss_order st /\ ss_evals st' = ss_evals st + tr_evals r.
Proof.
  destruct Iso as [I1 I2 _ _]. unfold apply_task_result. cbv zeta. rewrite I1, I2. intros Ha. apply bind_ok in Ha as (subs & _ & Ha). apply bind_ok in Ha as (x & _ & Ha). apply bind_ok in Ha as (h1 & _ & Ha).
  apply bind_ok in Ha as ([h2 b] & _ & Ha). cbn [bind] in Ha. apply bind_ok in Ha as (pops & Hp & Ha). injection Ha as <-. cbn.
  unfold set_index in Hp. destruct (Nat.ltb_spec (tr_idx r) (List.length (ss_pops st))); [|discriminate]. injection Hp as <-. auto.
Qed.

Lemma perm_update (f : nat -> list (task_result T)) i r : forall n a, a <= i < a + n ->
  Permutation (flat_map f (seq a n) ++ [r]) (flat_map (fun j => if j =? i then f j ++ [r] else f j) (seq a n)).
Proof.
  assert (Hne : forall n a, i < a -> flat_map (fun j => if j =? i then f j ++ [r] else f j) (seq a n) = flat_map f (seq a n)).
  { induction n as [|n IH]; intros a Ha; cbn; auto. destruct (Nat.eqb_spec a i); [lia|]. f_equal. apply IH. lia. }
  induction n as [|n IH]; intros a Ha; [lia|]. cbn [seq flat_map]. destruct (Nat.eqb_spec a i) as [->|Hn].
  - rewrite Hne by lia. rewrite <- !app_assoc. apply Permutation_app_head. apply Permutation_app_comm.
  - rewrite <- app_assoc. apply Permutation_app_head. apply IH. lia.
Qed.
Lemma order_at_perm n o g : order_at n = Ok (o, g) -> Permutation (seq 0 npop) o.
Proof.
  destruct n as [|n]; cbn [order_of]; intros Ho; [|apply bind_ok in Ho as ([o1 g1] & _ & Ho)].
  all: match type of Ho with shuffle ?a ?l = _ => destruct (C36_shuffle_is_permutation a l) as (o2 & g2 & Es & P) end; rewrite Es in Ho; injection Ho as <- <-; exact P.
Qed.

Lemma tracked_step c1 rs es f : tracked c1 rs es f -> forall e c2, cstep S0 full bl nw c1 e c2 ->
  (forall i, e <> Deliver i) -> tracked c2 rs (es ++ [e]) f.
Proof.
  intros [K Kd Kp Ka Kf K0 Ko Ke] e c2 Hs He. destruct (cstep_ok S0 full bl nw _ _ _ _ K Hs) as [K' Hsk].
  assert (Hd : delivered (es ++ [e]) = map tr_idx rs). { rewrite delivered_app, Kd. destruct e; cbn; rewrite ?app_nil_r; auto. exfalso. eapply He; eauto. }
  destruct Hs; cbn [co_st co_left co_tasks co_flight] in *.
  - (* a new iteration *)
    split; auto; cbn [co_st co_left co_tasks co_flight with_order ss_pops ss_order ss_evals]; rewrite started_app; cbn [started].
    + lia.
    + intros b Eb. destruct (ck_len _ _ _ _ K) as [Hl _]. cbn [co_st] in Hl. rewrite Hl in H.
      assert (Hord : order_at b = Ok (order, g)).
      { destruct (started es) as [|b0] eqn:E0; replace b with (started es) by lia; rewrite E0; cbn [order_of].
        - rewrite <- K0 by auto. exact H.
        - destruct (Ko b0 eq_refl) as (o & -> & _). cbn [bind]. exact H. }
      exists order. split; auto. apply order_at_perm, Permutation_length in Hord. rewrite seq_length in Hord. rewrite Hord, Nat.sub_diag. reflexivity.
  - exfalso. eapply Hsk; eauto.
  - (* a task is sent off *)
    pose proof (dispatch_some _ _ _ _ _ H0) as (D1 & D2 & D3 & _ & _ & _ & _ & _ & _ & D6 & _ & D8).
    assert (Dev : ss_evals st' = ss_evals st). { clear - H0. unfold dispatch in H0. apply bind_ok in H0 as ([ps|] & _ & H0); [|discriminate]. apply bind_ok in H0 as (pops & _ & H0). apply bind_ok in H0 as (cur & _ & H0). injection H0 as <- <-. reflexivity. }
    destruct K as [[L1 _] _ N1 R1 _ Cn _ [Sn _] Dp It Tot _ _ _]. cbn [co_st co_left co_tasks co_flight] in *.
    pose proof (Permutation_length Dp) as Dl. rewrite app_length, map_length in Dl.
    assert (Hi : i < npop) by (apply R1, in_or_app; right; left; auto).
    destruct (started es) as [|b] eqn:Eb. { exfalso. rewrite <- It in Tot. cbn [List.length Nat.add] in Tot. generalize dependent (n * npop). clear. intros. lia. }
    assert (Hst : ss_started st + S (List.length tasks) = S b * npop). { rewrite <- It, Nat.mul_add_distr_r in Tot. cbn [List.length] in Tot. rewrite Sn, Dl. revert Tot. generalize (n * npop), (S b * npop). clear. intros. lia. }
    destruct (Ko b eq_refl) as (o & Ho & Ht). pose proof (Permutation_length (order_at_perm _ _ _ Ho)) as Hlo. rewrite seq_length in Hlo.
    assert (Hcnt : count (map tr_idx rs) i = b).
    { pose proof (Cn i Hi) as Hc. rewrite Kd in Hc. assert (count (map tk_idx fl ++ i :: tasks) i = 1); [|lia].
      unfold count. pose proof (proj1 (NoDup_count_occ Nat.eq_dec _) N1 i). pose proof (proj1 (count_occ_In Nat.eq_dec (map tk_idx fl ++ i :: tasks) i) ltac:(apply in_or_app; right; left; auto)). lia. }
    symmetry in Ht. pose proof (skipn_cons_nth _ _ _ _ Ht) as (N2 & N3 & N4).
    assert (Hlen : S (List.length tasks) <= npop). { clear - Ht Hlo. apply (f_equal (@List.length nat)) in Ht. rewrite skipn_length in Ht. cbn [List.length] in Ht. lia. }
    split; auto; cbn [co_st co_left co_tasks co_flight]; rewrite ?started_app; cbn [started]; rewrite ?Nat.add_0_r, ?Eb; try (intros; discriminate).
    + intros k ps Hk. rewrite D3 in Hk. destruct (Nat.eq_dec i k) as [->|Hn]; [rewrite nth_error_upd_same in Hk by lia; discriminate|]. rewrite nth_error_upd_other in Hk by auto. auto.
    + intros u Hu. apply in_app_or in Hu as [Hu|[<-|[]]]; auto. rewrite D2. split; [apply Ka; exact D1|]. rewrite Hcnt. exists o, (ss_order st), (npop - S (List.length tasks)). split; auto.
      cbn [List.length] in N2. split; auto. rewrite <- D8. do 2 f_equal. clear - Hst Hlen. cbn [Nat.mul] in Hst. revert Hst Hlen. generalize (b * npop). intros. lia.
    + intros b0 [= <-]. exists o. rewrite D6. split; auto. rewrite <- N3 at 1. f_equal. cbn [List.length] in *. lia.
    + rewrite Dev. exact Ke.
  - exfalso. eapply He; eauto.
Qed.
Lemma count_snoc l a i : count (l ++ [a]) i = count l i + (if i =? a then 1 else 0).
Proof. unfold count. rewrite count_occ_app. cbn [count_occ]. destruct (Nat.eq_dec a i) as [->|Hn]; [now rewrite Nat.eqb_refl|]. destruct (Nat.eqb_spec i a); congruence. Qed.
Lemma same_task (l : list (task T)) t u : NoDup (map tk_idx l) -> In t l -> In u l -> tk_idx t = tk_idx u -> t = u.
Proof.
  induction l as [|x l IH]; intros N Ht Hu E; [destruct Ht|]. cbn in N. inversion N; subst. destruct Ht as [->|Ht], Hu as [->|Hu]; auto.
  - exfalso. apply H1. rewrite E. apply in_map; auto.
  - exfalso. apply H1. rewrite <- E. apply in_map; auto.
Qed.
Lemma nodup_left {A} (a b : list A) : NoDup (a ++ b) -> NoDup a.
Proof. induction a as [|x a IH]; intros N; [constructor|]. inversion N; subst. constructor; auto. intros Hx. apply H1. apply in_or_app; auto. Qed.
Lemma sum_app a b : PropSearch.sum (a ++ b) = PropSearch.sum a + PropSearch.sum b.
Proof. unfold PropSearch.sum. induction a as [|x a IH]; cbn [List.app fold_right]; auto. rewrite IH. lia. Qed.
Lemma tracked_deliver c1 rs es f r c2 : tracked c1 rs es f -> delivery S0 full bl nw c1 r c2 ->
  tracked c2 (rs ++ [r]) (es ++ [Deliver (tr_idx r)]) (fun j => if j =? tr_idx r then f j ++ [r] else f j).
Proof.
  intros [K Kd Kp Ka Kf K0 Ko Ke] (t & Ht & Hx & Hap & Hs). pose proof (execute_idx _ _ _ _ _ Hx) as [Ei _]. rewrite Ei.
  destruct (cstep_ok S0 full bl nw _ _ _ _ K Hs) as [K' _]. pose proof (apply_isolated _ _ _ Hap) as (A1 & A2 & A3 & A4). rewrite Ei in A1, A2.
  assert (Hi : tk_idx t < npop) by (destruct (ck_len _ _ _ _ K) as [<- _]; exact A2).
  pose proof (ck_nodup _ _ _ _ K) as N. apply nodup_left in N.
  assert (Hfl : forall u, In u (co_flight c2) -> In u (co_flight c1) /\ tk_idx u <> tk_idx t).
  { inversion Hs; subst. cbn [co_flight] in *. intros u Hu. split; [apply in_app_or in Hu as [Hu|Hu]; apply in_or_app; cbn; auto|].
    rewrite map_app in N. cbn [map] in N. apply NoDup_remove_2 in N. rewrite <- map_app in N. intros Eu. apply N. rewrite <- Eu. apply in_map; auto. }
  assert (Hco : co_tasks c2 = co_tasks c1 /\ co_left c2 = co_left c1) by (inversion Hs; subst; auto). destruct Hco as [Hct _].
  destruct (Kf t Ht) as (Hh & o & g & j & Ho & Hj & Hl). set (n := count (map tr_idx rs) (tk_idx t)) in *.
  split; auto.
  - rewrite delivered_app, Kd, map_app. cbn. now rewrite Ei.
  - eapply Permutation_trans; [apply Permutation_app_tail, Kp|]. apply perm_update. lia.
  - intros i ps Hn. rewrite A1 in Hn. rewrite map_app. cbn [map]. rewrite Ei, count_snoc. destruct (Nat.eqb_spec i (tk_idx t)) as [->|Hne].
    + rewrite nth_error_upd_same in Hn by auto. injection Hn as <-. fold n. rewrite Nat.add_1_r. apply (HsTask S0 full bl st0 _ n (tk_pop t) _ o g j (tk_cur t) (tk_stats t)); auto.
    + rewrite nth_error_upd_other in Hn by auto. rewrite Nat.add_0_r. auto.
  - intros u Hu. destruct (Hfl u Hu) as [Hu1 Hne]. rewrite map_app. cbn [map]. rewrite Ei, count_snoc. destruct (Nat.eqb_spec (tk_idx u) (tk_idx t)); [congruence|]. rewrite Nat.add_0_r. auto.
  - rewrite started_app. cbn. rewrite Nat.add_0_r, A3. auto.
  - rewrite started_app. cbn. rewrite Nat.add_0_r, A3, Hct. auto.
  - rewrite A4, Ke, map_app, sum_app. cbn. lia.
Qed.
Lemma tracked_start : at_home S0 st0 -> ss_started st0 = 0 -> ss_completed st0 = 0 -> tracked (parallel_start S0 st0) [] [] (fun _ => []).
Proof.
  intros H1 H2 H3. split; cbn; auto.
  - apply start_ok; auto.
  - clear. generalize 0. induction npop as [|k IH]; intros a; cbn; auto.
  - intros i ps Hn. constructor. exact Hn.
  - intros t [].
  - discriminate.
Qed.
Lemma tracked_receives c1 rs c2 : receives S0 full bl nw c1 rs c2 -> forall rs0 es0 f0, tracked c1 rs0 es0 f0 -> exists es f, tracked c2 (rs0 ++ rs) (es0 ++ es) f.
Proof.
  induction 1 as [c|c1 e c2 rs c3 Hs He _ IH|c1 r c2 rs c3 Hd _ IH]; intros rs0 es0 f0 Ht.
  - exists [], f0. now rewrite !app_nil_r.
  - destruct (IH _ _ _ (tracked_step _ _ _ _ Ht _ _ Hs He)) as (es & f & Hf). exists (e :: es), f. rewrite <- app_assoc in Hf. exact Hf.
  - destruct (IH _ _ _ (tracked_deliver _ _ _ _ _ _ Ht Hd)) as (es & f & Hf). exists (Deliver (tr_idx r) :: es), f. rewrite <- !app_assoc in Hf. exact Hf.
Qed.

(** A history is determined by the initial state. *)
Lemma order_unique n o g i j1 j2 : order_at n = Ok (o, g) -> nth_error o j1 = Some i -> nth_error o j2 = Some i -> j1 = j2.
Proof.
  intros Ho H1 H2. apply order_at_perm in Ho. assert (N : NoDup o) by (eapply Permutation_NoDup; [exact Ho|apply seq_NoDup]).
  apply (proj1 (NoDup_nth_error o) N); [apply nth_error_Some; congruence|congruence].
Qed.
Lemma history_unique i : forall n ps1 rs1, hist i n ps1 rs1 -> forall ps2 rs2, hist i n ps2 rs2 -> ps1 = ps2 /\ rs1 = rs2.
Proof.
  induction 1 as [ps Hp|n ps rs o g j cur st r Hh IH Ho Hj Hl Hx]; intros ps2 rs2 H2; inversion H2; subst.
  - split; congruence.
  - match goal with HH : hist i n _ _ |- _ => destruct (IH _ _ HH) as [<- <-] end.
    match goal with HH : order_at n = Ok (?o', _), HJ : nth_error ?o' _ = Some i |- _ => rewrite Ho in HH; injection HH as <- <-; pose proof (order_unique _ _ _ _ _ _ Ho Hj HJ) as <- end.
    match goal with HH : limit _ = Ok ?c' |- _ => rewrite Hl in HH; injection HH as <- end.
    match goal with HH : execute_task _ _ _ _ = Ok ?r' |- _ => rewrite (execute_stats S0 full bl i cur _ st ps Iso) in HH; rewrite Hx in HH; injection HH as <- end. auto.
Qed.
Lemma history_idx i n ps rs : hist i n ps rs -> List.length rs = n /\ Forall (fun r => tr_idx r = i) rs.
Proof. induction 1 as [ps Hp|n ps rs o g j cur st r Hh [L IH] Ho Hj Hl Hx]; [split; auto|]. split; [rewrite app_length; cbn; lia|]. apply Forall_app. split; auto. constructor; auto. apply execute_idx in Hx as [-> _]. reflexivity. Qed.

(** The end of a run. *)
Lemma tracked_end c rs es f : tracked c rs es f -> finished c ->
  (forall i, i < npop -> exists ps, nth_error (ss_pops (co_st c)) i = Some (Some ps) /\ hist i (sc_niterations S0) ps (f i)) /\ List.length (ss_pops (co_st c)) = npop.
Proof.
  intros [K Kd _ Ka _ _ _ _] (F1 & F2 & F3). destruct (ck_len _ _ _ _ K) as [Hl _]. split; auto. intros i Hi.
  pose proof (ck_counts _ _ _ _ K i Hi) as Hc. rewrite F1, F2, F3 in Hc. cbn in Hc. rewrite Kd in Hc.
  destruct (nth_error (ss_pops (co_st c)) i) as [[ps|]|] eqn:En.
  - exists ps. split; auto. replace (sc_niterations S0) with (count (map tr_idx rs) i) by lia. auto.
  - exfalso. apply (ck_taken _ _ _ _ K i Hi) in En. rewrite F3 in En. destruct En.
  - exfalso. apply nth_error_None in En. lia.
Qed.
End Inv.

(** A run from the start. *)
Lemma run_tracked {T W} (S0 : search_cfg T W) full bl nw st0 rs c : isolated S0 -> init_search S0 full bl = Ok st0 ->
  receives S0 full bl nw (parallel_start S0 st0) rs c -> finished c ->
  exists f, (forall i, i < sc_populations S0 -> exists ps, nth_error (ss_pops (co_st c)) i = Some (Some ps) /\ history S0 full bl st0 i (sc_niterations S0) ps (f i))
    /\ List.length (ss_pops (co_st c)) = sc_populations S0 /\ Permutation rs (flat_map f (seq 0 (sc_populations S0)))
    /\ ss_evals (co_st c) = ss_evals st0 + PropSearch.sum (map tr_evals rs).
Proof.
  intros Iso Hi Hr Hf. apply init_home in Hi as (H1 & H2 & H3 & _).
  destruct (tracked_receives S0 full bl nw st0 Iso _ _ _ Hr _ _ _ (tracked_start S0 full bl nw st0 H1 H2 H3)) as (es & f & Ht).
  cbn [List.app] in Ht. destruct (tracked_end S0 full bl nw st0 _ _ _ _ Ht Hf) as [E1 E2]. exists f. destruct Ht. auto.
Qed.
Lemma sum_perm a b : Permutation a b -> PropSearch.sum a = PropSearch.sum b.
Proof. unfold PropSearch.sum. induction 1; cbn [fold_right]; lia. Qed.
Lemma runs_agree {T W} (S0 : search_cfg T W) full bl nw1 nw2 st0 rs1 c1 rs2 c2 : isolated S0 -> init_search S0 full bl = Ok st0 ->
  receives S0 full bl nw1 (parallel_start S0 st0) rs1 c1 -> finished c1 -> receives S0 full bl nw2 (parallel_start S0 st0) rs2 c2 -> finished c2 ->
  ss_pops (co_st c1) = ss_pops (co_st c2) /\ Permutation rs1 rs2 /\ ss_evals (co_st c1) = ss_evals (co_st c2).
Proof.
  intros Iso Hi R1 F1 R2 F2. destruct (run_tracked _ _ _ _ _ _ _ Iso Hi R1 F1) as (f1 & A1 & L1 & P1 & V1). destruct (run_tracked _ _ _ _ _ _ _ Iso Hi R2 F2) as (f2 & A2 & L2 & P2 & V2).
  assert (Hu : forall i, i < sc_populations S0 -> nth_error (ss_pops (co_st c1)) i = nth_error (ss_pops (co_st c2)) i /\ f1 i = f2 i).
  { intros i Hl. destruct (A1 i Hl) as (ps1 & N1 & h1). destruct (A2 i Hl) as (ps2 & N2 & h2). destruct (history_unique S0 full bl st0 Iso i _ _ _ h1 _ _ h2) as [<- ->]. split; congruence. }
  assert (P : Permutation rs1 rs2).
  { eapply Permutation_trans; [exact P1|]. eapply Permutation_trans; [|apply Permutation_sym, P2]. rewrite !flat_map_concat_map. erewrite map_ext_in; [apply Permutation_refl|]. intros i Hin. apply in_seq in Hin. apply Hu. lia. }
  split; [|split; auto].
  - apply nth_error_ext. intros i. destruct (Nat.lt_ge_cases i (sc_populations S0)) as [Hl|Hl]; [apply Hu; auto|]. rewrite !(proj2 (nth_error_None _ i)) by lia. reflexivity.
  - rewrite V1, V2. f_equal. apply sum_perm, Permutation_map, P.
Qed.
Lemma receives_split {T W} (S0 : search_cfg T W) full bl nw c1 rs c2 : receives S0 full bl nw c1 rs c2 -> forall r, In r rs ->
  exists ca cb es1 es2, csteps S0 full bl nw c1 es1 ca /\ delivery S0 full bl nw ca r cb /\ csteps S0 full bl nw cb es2 c2.
Proof.
  induction 1 as [c|c1 e c2 rs c3 Hs He _ IH|c1 r c2 rs c3 Hd Hr IH]; intros x Hx; [destruct Hx|..].
  - destruct (IH _ Hx) as (ca & cb & es1 & es2 & K1 & K2 & K3). exists ca, cb, (e :: es1), es2. split; auto. econstructor; eauto.
  - destruct Hx as [->|Hx].
    + destruct (receives_csteps S0 full bl nw _ _ _ Hr) as (es & K). exists c1, c2, [], es. split; [constructor|auto].
    + destruct (IH _ Hx) as (ca & cb & es1 & es2 & K1 & K2 & K3). pose proof Hd as (t & _ & _ & _ & Hs). exists ca, cb, (Deliver (tk_idx t) :: es1), es2. split; auto. econstructor; eauto.
Qed.

Lemma split_unique {T} (a : list (task T)) x b c y d : a ++ x :: b = c ++ y :: d -> NoDup (map tk_idx (c ++ y :: d)) -> tk_idx y = tk_idx x -> a = c /\ x = y /\ b = d.
Proof.
  revert c. induction a as [|z a IH]; intros [|w c] E N Ei; cbn in *.
  - injection E as -> ->. auto.
  - injection E as -> ->. exfalso. inversion N; subst. apply H1. rewrite <- Ei. apply in_map, in_or_app. right. left. auto.
  - injection E as -> <-. exfalso. inversion N; subst. apply H1. rewrite Ei. apply in_map, in_or_app. right. left. auto.
  - injection E as -> E. inversion N; subst. destruct (IH _ E) as (-> & -> & ->); auto.
Qed.

(** The coordinator has no choice but which result to receive. *)
Lemma cstep_choice {T W} (S0 : search_cfg T W) full bl nw c es0 e1 c1 e2 c2 : coord_ok S0 nw c es0 -> cstep S0 full bl nw c e1 c1 -> cstep S0 full bl nw c e2 c2 ->
  (exists i j, e1 = Deliver i /\ e2 = Deliver j /\ (i = j -> c1 = c2)) \/ (e1 = e2 /\ c1 = c2 /\ forall i, e1 <> Deliver i).
Proof.
  intros K H1 H2. destruct H1; inversion H2; subst; try (cbn in *; lia); try (right; split; [congruence|split; [congruence|discriminate]]).
  all: try match goal with HH : _ ++ _ :: _ = [] |- _ => destruct fl1; discriminate end; try match goal with HH : [] = _ ++ _ :: _ |- _ => destruct fl1; discriminate end.
  all: try match goal with HH : dispatch ?S1 ?s ?i = _, HH' : dispatch ?S1 ?s ?i = _ |- _ => rewrite HH in HH'; try discriminate HH'; injection HH' as <- <-; right; split; [congruence|split; [congruence|discriminate]] end.
  all: try (match goal with HH : ?nw1 <= _ \/ _ = [] |- _ => destruct HH as [HH|HH]; [lia|discriminate HH] end).
  left. exists (tk_idx t), (tk_idx t0). split; auto. split; auto. intros Et. pose proof (ck_nodup _ _ _ _ K) as N. apply nodup_left in N. cbn [co_flight] in N.
  match goal with HH : fl0 ++ t0 :: fl3 = _ |- _ => destruct (split_unique _ _ _ _ _ _ HH N Et) as (<- & -> & <-) end. congruence.
Qed.
Lemma finished_stuck {T W} (S0 : search_cfg T W) full bl nw c e c' : finished c -> cstep S0 full bl nw c e c' -> False.
Proof. intros (F1 & F2 & F3) Hs. destruct Hs; cbn in *; try discriminate. destruct fl1; discriminate. Qed.
Lemma arrival_order {T W} (S0 : search_cfg T W) full bl nw : forall es1 c es0 c1 es2 c2, coord_ok S0 nw c es0 ->
  csteps S0 full bl nw c es1 c1 -> finished c1 -> csteps S0 full bl nw c es2 c2 -> finished c2 -> delivered es1 = delivered es2 -> es1 = es2 /\ c1 = c2.
Proof.
  induction es1 as [|e1 es1 IH]; intros c es0 c1 es2 c2 K K1 F1 K2 F2 Ed.
  - inversion K1; subst. inversion K2 as [|? ? ? ? ? S2 R2]; subst; [split; reflexivity|exfalso; exact (finished_stuck _ _ _ _ _ _ _ F1 S2)].
  - inversion K1 as [|? ? ca ? ? S1 R1]; subst. inversion K2 as [|? e2 cb es2' ? S2 R2]; subst; [exfalso; eapply finished_stuck; eauto|].
    destruct (cstep_choice S0 full bl nw _ _ _ _ _ _ K S1 S2) as [(i & j & -> & -> & Hc)|(<- & <- & Hne)].
    + cbn in Ed. injection Ed as -> Ed. rewrite <- (Hc eq_refl) in *. destruct (cstep_ok S0 full bl nw _ _ _ _ K S1) as [K' _]. destruct (IH _ _ _ _ _ K' R1 F1 R2 F2 Ed) as [-> ->]. auto.
    + destruct (cstep_ok S0 full bl nw _ _ _ _ K S1) as [K' _]. destruct (IH _ _ _ _ _ K' R1 F1 R2 F2) as [-> ->]; auto. destruct e1; cbn in Ed; auto. exfalso. eapply Hne; eauto.
Qed.

(** The stepwise engine as a coordinator with one worker. *)
Lemma engine_cycle {T W} (S0 : search_cfg T W) d bl c es0 en en' b : 1 <= sc_populations S0 -> coord_ok S0 1 c es0 -> alike S0 d bl c en -> step_one_cycle S0 en = Ok (en', b) ->
  exists es c', csteps S0 d bl 1 c es c' /\ alike S0 d bl c' en' /\ (b = false -> finished c').
Proof.
  intros Hp K (A1 & A2 & A3 & A4 & A5 & A6) Hs. unfold step_one_cycle in Hs. destruct (is_finished S0 en) eqn:Ef.
  - injection Hs as <- <-. exists [], c. split; [constructor|]. split; [unfold alike; auto 10|]. intros _.
    unfold is_finished, total_cycles in Ef. apply Nat.eqb_eq in Ef. rewrite A1 in Ef. destruct (ck_started _ _ _ _ K) as [_ Ec]. rewrite Ec in Ef. pose proof (ck_total _ _ _ _ K) as Tot. rewrite A4 in Tot. cbn [List.length] in Tot.
    split; [|split; auto].
    + destruct (co_left c) as [|x]; auto. exfalso. cbn [Nat.mul] in Tot. revert Tot Ef. generalize (sc_niterations S0 * sc_populations S0), (x * sc_populations S0). intros. lia.
    + destruct (co_tasks c) as [|x l]; auto. exfalso. cbn [List.length] in Tot. revert Tot Ef. generalize (sc_niterations S0 * sc_populations S0), (co_left c * sc_populations S0). intros. lia.
  - apply bind_ok in Hs as (en1 & Hpr & Hs).
    assert (Hpre : exists es1 c1, csteps S0 d bl 1 c es1 c1 /\ alike S0 d bl c1 en1 /\ is_finished S0 en1 = false).
    { destruct c as [st n tasks fl]. cbn [co_st co_left co_tasks co_flight] in *. subst fl. unfold prepare_iteration in Hpr. destruct (Nat.leb_spec (sc_niterations S0) (en_iter en)) as [Hle|Hlt].
      - injection Hpr as <-. exists [], (mkCoord st n tasks []). split; [constructor|]. split; [unfold alike; cbn; auto 10|auto].
      - destruct (_ && _) eqn:Eb.
        + injection Hpr as <-. exists [], (mkCoord st n tasks []). split; [constructor|]. split; [unfold alike; cbn; auto 10|auto].
        + apply bind_ok in Hpr as ([order g] & Hsh & Hpr). injection Hpr as <-. rewrite A1 in *. destruct n as [|n]; [lia|].
          assert (tasks = []) as ->. { rewrite <- A5. apply andb_false_iff in Eb as [Eb|Eb]; [apply negb_false_iff, Nat.eqb_eq in Eb; destruct (en_tasks en); [destruct (en_next en); reflexivity|discriminate]|apply Nat.ltb_ge in Eb; apply skipn_all2; auto]. }
          exists [NewIteration], (mkCoord (with_order st g) n order []). split; [econstructor; [constructor; exact Hsh|constructor]|]. split; [unfold alike; cbn; repeat split; auto; lia|].
          unfold is_finished in *. cbn [en_st with_order ss_completed]. rewrite <- A1. exact Ef. }
    destruct Hpre as (es1 & c1 & K1 & (B1 & B2 & B3 & B4 & B5 & B6) & Ef1). rewrite Ef1 in Hs. apply bind_ok in Hs as (i & Hix & Hs). apply bind_ok in Hs as (o & Ho & Hs).
    unfold index in Hix. destruct (nth_error (en_tasks en1) (en_next en1)) as [i'|] eqn:En; [|discriminate]. cbn in Hix. injection Hix as ->.
    destruct c1 as [st n tasks fl]. cbn [co_st co_left co_tasks co_flight] in *. subst fl. rewrite B1, B2, B3 in *.
    assert (Htk : tasks = i :: skipn (en_next en1 + 1) (en_tasks en1)).
    { rewrite <- B5. clear - En. revert En. generalize (en_next en1). induction (en_tasks en1) as [|y l IH]; intros [|k] Hk; try discriminate; cbn in *; [injection Hk as ->; reflexivity|apply IH; auto]. }
    destruct o as [[st1 t]|].
    + apply bind_ok in Hs as (r & Hx & Hs). apply bind_ok in Hs as (st2 & Ha & Hs). injection Hs as <- <-.
      exists (es1 ++ [Dispatch i (tk_cur t); Deliver (tk_idx t)]), (mkCoord st2 n (skipn (en_next en1 + 1) (en_tasks en1)) []). split; [|split; [unfold alike; cbn; auto 10|discriminate]].
      eapply csteps_app; [exact K1|]. rewrite Htk. econstructor; [apply CDispatch; [cbn; lia|exact Ho]|]. econstructor; [|constructor]. apply (CDeliver S0 d bl 1 st1 n _ [] t [] r st2); auto.
    + injection Hs as <- <-. exists (es1 ++ [Skip i]), (mkCoord st n (skipn (en_next en1 + 1) (en_tasks en1)) []). split; [|split; [unfold alike; cbn; auto 10|discriminate]].
      eapply csteps_app; [exact K1|]. rewrite Htk. econstructor; [apply CSkip; [cbn; lia|exact Ho]|constructor].
Qed.
Lemma engine_run {T W} (S0 : search_cfg T W) d bl : 1 <= sc_populations S0 -> forall fuel c es0 en en', coord_ok S0 1 c es0 -> alike S0 d bl c en -> run_loop S0 fuel en = Ok en' ->
  exists es c', csteps S0 d bl 1 c es c' /\ finished c' /\ co_st c' = en_st en'.
Proof.
  intros Hp. induction fuel as [|fuel IH]; intros c es0 en en' K A Hr; [discriminate|]. cbn [run_loop] in Hr. apply bind_ok in Hr as ([en1 b] & H1 & Hr).
  destruct (engine_cycle S0 d bl c es0 en en1 b Hp K A H1) as (es1 & c1 & K1 & A1 & Hb). destruct b.
  - destruct (csteps_ok S0 d bl 1 _ _ _ _ K K1) as [K2 _]. destruct (IH _ _ _ _ K2 A1 Hr) as (es2 & c2 & K3 & F & E). exists (es1 ++ es2), c2. split; auto. eapply csteps_app; eauto.
  - injection Hr as <-. exists es1, c1. split; auto. split; auto. symmetry. apply A1.
Qed.

(** ** More specification *)

(** Two final states agree: the same populations and number of evaluations; the halls of fame have entries at the same complexities, with costs neither of which is lower
    (they may be different members of equal cost); neither best member has lower loss. *)
Record agree {T} (F : FloatOps T) (st1 st2 : search_st T) : Prop := {
  ag_pops : ss_pops st1 = ss_pops st2;
  ag_evals : ss_evals st1 = ss_evals st2;
  ag_hall : forall k, match nth_error (ss_hall st1) k, nth_error (ss_hall st2) k with
                      | Some (Some m1), Some (Some m2) => fltb F (m_cost m1) (m_cost m2) = false /\ fltb F (m_cost m2) (m_cost m1) = false
                      | Some None, Some None | None, None => True
                      | _, _ => False
                      end;
  ag_best : ~ beats F (ss_best st1) (ss_best st2) /\ ~ beats F (ss_best st2) (ss_best st1) }.

(** ** Lemmas *)
Lemma champion_same {T} (F : FloatOps T) o k os1 os2 s1 s2 : (forall p, In p os1 <-> In p os2) -> champion F o k os1 s1 -> champion F o k os2 s2 ->
  match s1, s2 with Some m1, Some m2 => fltb F (m_cost m1) (m_cost m2) = false /\ fltb F (m_cost m2) (m_cost m1) = false | None, None => True | _, _ => False end.
Proof.
  intros Hin H1 H2. destruct s1 as [m1|], s2 as [m2|]; cbn in *; auto.
  - destruct H1 as (b1 & c1 & a1 & E1 & C1 & L1 & _), H2 as (b2 & c2 & a2 & E2 & C2 & L2 & _).
    assert (I1 : In (m1, c1) os2) by (apply Hin; rewrite E1; apply in_or_app; right; left; auto).
    assert (I2 : In (m2, c2) os1) by (apply Hin; rewrite E2; apply in_or_app; right; left; auto).
    split; [apply (L2 _ I1 C1)|apply (L1 _ I2 C2)].
  - destruct H1 as (b1 & c1 & a1 & E1 & C1 & _). eapply H2; [|exact C1]. apply Hin. rewrite E1. apply in_or_app; right; left; auto.
  - destruct H2 as (b2 & c2 & a2 & E2 & C2 & _). eapply H1; [|exact C2]. apply Hin. rewrite E2. apply in_or_app; right; left; auto.
Qed.
Lemma not_better {T W} (S0 : search_cfg T W) full bl B nw1 nw2 st0 es1 c1 es2 c2 : search_ok S0 full B -> isolated S0 -> init_search S0 full bl = Ok st0 -> OrderLaws (ec_F (eo_C (sc_E S0))) ->
  csteps S0 full bl nw1 (parallel_start S0 st0) es1 c1 -> finished c1 -> csteps S0 full bl nw2 (parallel_start S0 st0) es2 c2 -> finished c2 ->
  ~ beats (ec_F (eo_C (sc_E S0))) (ss_best (co_st c1)) (ss_best (co_st c2)).
Proof.
  intros H Iso Hi O K1 F1 K2 F2. destruct (sound_inv S0 full bl B H) as (V1 & V2 & _).
  set (P0 := sound (sc_E S0) (ds_n_features full) B bl) in *.
  assert (Hv0 : co_inv S0 full P0 P0 P0 (within (sc_E S0) (sel_maxsize (eo_sel (sc_E S0)))) (parallel_start S0 st0)) by (split; [apply V1; auto|intros ? []]).
  destruct (csteps_origin S0 full bl B H nw1 _ _ _ Hv0 K1) as [E|(ea & ca & r & cb & eb & Ka & Kd & Kb & Hin & Hw & Hcur)].
  - rewrite E. destruct (csteps_improves S0 full bl B H nw2 _ _ _ Hv0 K2 O) as [-> |Hb]; unfold beats in *; [rewrite (ol_irr _ O); discriminate|].
    intros Hb2. pose proof (ol_trans _ O _ _ _ Hb Hb2) as Ht. rewrite (ol_irr _ O) in Ht. discriminate.
  - destruct (csteps_receives S0 full bl nw1 _ _ _ Ka) as (ra & Ra). destruct (csteps_receives S0 full bl nw1 _ _ _ Kb) as (rb & Rb). destruct (csteps_receives S0 full bl nw2 _ _ _ K2) as (r2 & R2).
    assert (R1 : receives S0 full bl nw1 (parallel_start S0 st0) (ra ++ r :: rb) c1) by (eapply receives_app; [exact Ra|]; eapply RcDeliver; eauto).
    destruct (runs_agree S0 full bl nw1 nw2 st0 _ _ _ _ Iso Hi R1 F1 R2 F2) as (_ & P & _).
    assert (Hr2 : In r r2) by (eapply Permutation_in; [exact P|]; apply in_or_app; right; left; auto).
    destruct (receives_split S0 full bl nw2 _ _ _ R2 r Hr2) as (cx & cy & ex & ey & X1 & X2 & X3).
    assert (Hx : co_inv S0 full P0 P0 P0 (within (sc_E S0) (sel_maxsize (eo_sel (sc_E S0)))) cy).
    { pose proof X2 as (t & _ & _ & _ & Hs). apply (V2 nw2 (parallel_start S0 st0) (ex ++ [Deliver (tk_idx t)]) cy Hv0). eapply csteps_app; [exact X1|]. econstructor; [exact Hs|constructor]. }
    eapply (improves_keeps S0 O); [apply (csteps_improves S0 full bl B H nw2 _ _ _ Hx X3 O)|].
    pose proof X2 as (t & Ht & Hxt & Hap & Hst). destruct (V2 nw2 _ _ _ Hv0 X1) as [Hs1 Hf1]. destruct (Hf1 t Ht) as [(L & S1 & Rr) Hcu].
    destruct (task_sound S0 full bl B H t r L S1 Rr Hcu Hxt) as (_ & Hp & _).
    clear - Hap Hp Hin Hw Hcur O H. unfold apply_task_result in Hap. cbv zeta in Hap. apply bind_ok in Hap as (subs & _ & Ha). apply bind_ok in Ha as (x & _ & Ha). apply bind_ok in Ha as (h1 & _ & Ha).
    apply bind_ok in Ha as ([h2 b] & Hob & Ha). apply bind_ok in Ha as (ps1 & _ & Ha). apply bind_ok in Ha as (ps2 & _ & Ha). apply bind_ok in Ha as (pops & _ & Ha). injection Ha as <-. cbn [ss_best].
    destruct (offer_best_spec S0 full bl B H (tr_cur r) Hcur _ _ _ _ _ Hp Hob) as [_ Hb]. apply (Hb O); auto.
Qed.
Lemma isolated_agree {T W} (S0 : search_cfg T W) full bl B nw1 nw2 st0 es1 c1 es2 c2 : search_ok S0 full B -> isolated S0 -> init_search S0 full bl = Ok st0 -> OrderLaws (ec_F (eo_C (sc_E S0))) ->
  csteps S0 full bl nw1 (parallel_start S0 st0) es1 c1 -> finished c1 -> csteps S0 full bl nw2 (parallel_start S0 st0) es2 c2 -> finished c2 ->
  agree (ec_F (eo_C (sc_E S0))) (co_st c1) (co_st c2).
Proof.
  intros H Iso Hi O K1 F1 K2 F2.
  destruct (csteps_receives S0 full bl nw1 _ _ _ K1) as (r1 & R1). destruct (csteps_receives S0 full bl nw2 _ _ _ K2) as (r2 & R2).
  destruct (runs_agree S0 full bl nw1 nw2 st0 _ _ _ _ Iso Hi R1 F1 R2 F2) as (Ep & P & Ee). split; auto.
  - destruct (sound_inv S0 full bl B H) as (V1 & _). set (P0 := sound (sc_E S0) (ds_n_features full) B bl) in *.
    assert (Hv0 : co_inv S0 full P0 P0 P0 (within (sc_E S0) (sel_maxsize (eo_sel (sc_E S0)))) (parallel_start S0 st0)) by (split; [apply V1; auto|intros ? []]).
    assert (Hh : forall nw rs c, receives S0 full bl nw (parallel_start S0 st0) rs c -> List.length (ss_hall (co_st c)) = sel_maxsize (eo_sel (sc_E S0)) + 1 /\ nth_error (ss_hall (co_st c)) 0 = Some None
      /\ forall k, 1 <= k <= sel_maxsize (eo_sel (sc_E S0)) -> exists slot, nth_error (ss_hall (co_st c)) k = Some slot
           /\ champion (ec_F (eo_C (sc_E S0))) (ec_size (eo_C (sc_E S0))) k (first_offers (sel_maxsize (eo_sel (sc_E S0))) st0 ++ flat_map offers rs) slot).
    { intros nw rs c Hr. apply (offers_champions S0 full bl B H); auto.
      - apply Forall_app. split; [apply (first_sound S0 full bl B H); auto|]. eapply (received_sound S0 full bl B H); [exact Hv0|exact Hr].
      - rewrite offer_all_app. rewrite (init_hall S0 full bl st0 Hi). cbn [bind]. apply (receives_hall S0 full bl nw _ _ _ Hr). }
    destruct (Hh nw1 r1 c1 R1) as (L1 & Z1 & C1). destruct (Hh nw2 r2 c2 R2) as (L2 & Z2 & C2). intros k. destruct (Nat.eq_dec k 0) as [->|Hk0]; [rewrite Z1, Z2; auto|].
    destruct (Nat.le_gt_cases k (sel_maxsize (eo_sel (sc_E S0)))) as [Hk|Hk].
    + destruct (C1 k ltac:(lia)) as (s1 & -> & Hs1). destruct (C2 k ltac:(lia)) as (s2 & -> & Hs2).
      pose proof (champion_same _ _ _ _ (first_offers (sel_maxsize (eo_sel (sc_E S0))) st0 ++ flat_map offers r2) _ _ (fun p => conj (fun Hp => in_or_app _ _ p (match in_app_or _ _ p Hp with or_introl a => or_introl a | or_intror b => or_intror (Permutation_in p (Permutation_flat_map offers P) b) end))
        (fun Hp => in_or_app _ _ p (match in_app_or _ _ p Hp with or_introl a => or_introl a | or_intror b => or_intror (Permutation_in p (Permutation_flat_map offers (Permutation_sym P)) b) end))) Hs1 Hs2) as Hc.
      destruct s1, s2; auto.
    + rewrite !(proj2 (nth_error_None _ k)) by lia. auto.
  - split; [eapply not_better; [exact H|exact Iso|exact Hi|exact O|exact K1|exact F1|exact K2|exact F2]|eapply not_better; [exact H|exact Iso|exact Hi|exact O|exact K2|exact F2|exact K1|exact F1]].
Qed.

(** ** C68 *)

(** With no migration and no use of the statistics, each population at the end of a parallel search is the one it would have become on its own. *)
Theorem C68_alone : forall (T W : Type) (S0 : search_cfg T W) full bl threads st0 es c,
  isolated S0 -> init_search S0 full bl = Ok st0 -> csteps S0 full bl (n_workers S0 threads) (parallel_start S0 st0) es c -> finished c ->
  forall i, i < sc_populations S0 -> exists ps rs, nth_error (ss_pops (co_st c)) i = Some (Some ps) /\ history S0 full bl st0 i (sc_niterations S0) ps rs
    /\ forall ps' rs', history S0 full bl st0 i (sc_niterations S0) ps' rs' -> ps' = ps /\ rs' = rs.
Proof.
  intros T W S0 full bl th st0 es c Iso Hi Hc Hf i Hl. destruct (csteps_receives S0 full bl _ _ _ _ Hc) as (rs & Hr).
  destruct (run_tracked S0 full bl _ st0 rs c Iso Hi Hr Hf) as (f & A & _). destruct (A i Hl) as (ps & Hn & Hh). exists ps, (f i). split; auto. split; auto.
  intros ps' rs' Hh'. destruct (history_unique S0 full bl st0 Iso i _ _ _ Hh' _ _ Hh) as [-> ->]. auto.
Qed.

(** Then the thread count and the schedule do not matter: any two complete runs of the same search agree, and receive the same results, in some order. *)
Theorem C68_schedule : forall (T W : Type) (S0 : search_cfg T W) full bl B threads1 threads2 st0 es1 c1 es2 c2,
  search_ok S0 full B -> isolated S0 -> init_search S0 full bl = Ok st0 -> OrderLaws (ec_F (eo_C (sc_E S0))) ->
  csteps S0 full bl (n_workers S0 threads1) (parallel_start S0 st0) es1 c1 -> finished c1 ->
  csteps S0 full bl (n_workers S0 threads2) (parallel_start S0 st0) es2 c2 -> finished c2 ->
  agree (ec_F (eo_C (sc_E S0))) (co_st c1) (co_st c2)
  /\ forall rs1 rs2, receives S0 full bl (n_workers S0 threads1) (parallel_start S0 st0) rs1 c1 -> receives S0 full bl (n_workers S0 threads2) (parallel_start S0 st0) rs2 c2 -> Permutation rs1 rs2.
Proof.
  intros T W S0 full bl B t1 t2 st0 es1 c1 es2 c2 H Iso Hi O K1 F1 K2 F2. split; [eapply isolated_agree; [exact H|exact Iso|exact Hi|exact O|exact K1|exact F1|exact K2|exact F2]|].
  intros r1 r2 R1 R2. destruct (runs_agree S0 full bl _ _ st0 _ _ _ _ Iso Hi R1 F1 R2 F2) as (_ & P & _). exact P.
Qed.

(** The stepwise engine, run to completion, agrees with every parallel run. *)
Theorem C68_engine : forall (T W : Type) (S0 : search_cfg T W) full B threads en0 fuel en es c,
  search_ok S0 full B -> isolated S0 -> engine_new S0 full = Ok en0 -> OrderLaws (ec_F (eo_C (sc_E S0))) ->
  run_loop S0 fuel en0 = Ok en ->
  csteps S0 full (en_bl en0) (n_workers S0 threads) (parallel_start S0 (en_st en0)) es c -> finished c ->
  agree (ec_F (eo_C (sc_E S0))) (en_st en) (co_st c).
Proof.
  intros T W S0 full B th en0 fuel en es c H Iso Hn O Hr Hc Hf. unfold engine_new in Hn. apply bind_ok in Hn as (bl & _ & Hn). apply bind_ok in Hn as (st & Hi & Hn). injection Hn as <-. cbn [en_st en_bl] in *.
  pose proof (init_home _ _ _ _ Hi) as (H1 & H2 & H3 & _ & H4).
  destruct (engine_run S0 full bl H4 fuel (parallel_start S0 st) [] (mkEngine st full bl 0 [] 0) en (start_ok S0 1 st H1 H2 H3) ltac:(unfold alike; cbn; auto 10) Hr) as (es' & c' & K & F & <-).
  eapply isolated_agree; [exact H|exact Iso|exact Hi|exact O|exact K|exact F|exact Hc|exact Hf].
Qed.

(** In general, the order in which results arrive is the only thing the schedule decides: with the same number of workers, two complete runs with the same arrival order
    end in the same state. *)
Theorem C68_arrival_order : forall (T W : Type) (S0 : search_cfg T W) full bl threads st0 es1 c1 es2 c2,
  init_search S0 full bl = Ok st0 -> let nw := n_workers S0 threads in
  csteps S0 full bl nw (parallel_start S0 st0) es1 c1 -> finished c1 -> csteps S0 full bl nw (parallel_start S0 st0) es2 c2 -> finished c2 ->
  delivered es1 = delivered es2 -> c1 = c2.
Proof.
  intros T W S0 full bl th st0 es1 c1 es2 c2 Hi nw K1 F1 K2 F2 Ed. apply init_home in Hi as (H1 & H2 & H3 & _).
  destruct (arrival_order S0 full bl nw es1 _ [] c1 es2 c2 (start_ok S0 nw st0 H1 H2 H3) K1 F1 K2 F2 Ed) as [_ ->]. reflexivity.
Qed.

(** *** Generators *)

(** The same search with other generators for the populations. *)
Definition reseed {T W} (S0 : search_cfg T W) (f : nat -> rng T) : search_cfg T W :=
  mkSearch (sc_E S0) (sc_niterations S0) (sc_populations S0) (sc_population_size S0) (sc_batching S0) (sc_batch_size S0) (sc_topn S0) (sc_migration S0) (sc_frac S0)
    (sc_hof_migration S0) (sc_frac_hof S0) (sc_poisson S0) f (sc_order S0) (sc_stride S0) (sc_F32 S0) (sc_of32 S0) (sc_floor32 S0) (sc_warmup_by S0).

Lemma init_members_same {T W} (S0 : search_cfg T W) f d bl : forall n s h1 ms1 s1 h1' h2 ms2 s2 h2',
  init_members S0 n d bl s h1 = Ok (ms1, s1, h1') -> init_members (reseed S0 f) n d bl s h2 = Ok (ms2, s2, h2') -> ms1 = ms2 /\ s1 = s2.
Proof.
  induction n as [|n IH]; intros s h1 ms1 s1 h1' h2 ms2 s2 h2' H1 H2; cbn [init_members reseed sc_E] in H1, H2; [injection H1 as <- <- _; injection H2 as <- <- _; auto|].
  apply bind_ok in H1 as ([e g] & E1 & H1). rewrite E1 in H2. cbn [bind] in H2. apply bind_ok in H1 as (m & E2 & H1). rewrite E2 in H2. cbn [bind] in H2.
  apply bind_ok in H1 as ([[m1 ev] ok] & E3 & H1). rewrite E3 in H2. cbn [bind] in H2. apply bind_ok in H1 as (ha & _ & H1). apply bind_ok in H2 as (hb & _ & H2).
  apply bind_ok in H1 as ([[l1 t1] k1] & A1 & H1). apply bind_ok in H2 as ([[l2 t2] k2] & A2 & H2). destruct (IH _ _ _ _ _ _ _ _ _ A1 A2) as [<- <-]. injection H1 as <- <- _. injection H2 as <- <- _. auto.
Qed.
Lemma init_members_exprs {T W} (S0 : search_cfg T W) f d bl : forall n s h1 ms1 s1 h1' s' h2 ms2 s2 h2', es_rng s = es_rng s' ->
  init_members S0 n d bl s h1 = Ok (ms1, s1, h1') -> init_members (reseed S0 f) n d bl s' h2 = Ok (ms2, s2, h2') -> map m_expr ms1 = map m_expr ms2.
Proof.
  induction n as [|n IH]; intros s h1 ms1 s1 h1' s' h2 ms2 s2 h2' Es H1 H2; cbn [init_members reseed sc_E] in H1, H2; [injection H1 as <- _ _; injection H2 as <- _ _; auto|].
  rewrite <- Es in H2. apply bind_ok in H1 as ([e g] & E1 & H1). rewrite E1 in H2. cbn [bind] in H2.
  apply bind_ok in H1 as (m & E2 & H1). apply bind_ok in H2 as (m' & E2' & H2).
  apply bind_ok in H1 as ([[m1 ev] ok] & E3 & H1). apply bind_ok in H2 as ([[m1' ev'] ok'] & E3' & H2). apply bind_ok in H1 as (ha & _ & H1). apply bind_ok in H2 as (hb & _ & H2).
  apply bind_ok in H1 as ([[l1 t1] k1] & A1 & H1). apply bind_ok in H2 as ([[l2 t2] k2] & A2 & H2). injection H1 as <- _ _. injection H2 as <- _ _. cbn [map]. f_equal.
  - apply from_expr_frame in E2 as (_ & _ & _ & E2 & _). apply from_expr_frame in E2' as (_ & _ & _ & E2' & _). apply evaluate_frame in E3 as (c & l & k & -> & _). apply evaluate_frame in E3' as (c' & l' & k' & -> & _). cbn [set_eval m_expr]. congruence.
  - eapply IH; [|exact A1|exact A2]. reflexivity.
Qed.
Lemma init_pops_nth {T W} (S0 : search_cfg T W) d bl : forall n i h ps h', init_pops S0 n i d bl h = Ok (ps, h') -> List.length ps = n /\ forall k, k < n ->
  exists h1 ms s h2, init_members S0 (sc_population_size S0) d bl (mkEvoSt (sc_seed S0 (i + k)) (evaluator_new (ec_F (eo_C (sc_E S0))) (ds_n_rows d)) ((i + k) * sc_stride S0) 0) h1 = Ok (ms, s, h2)
    /\ nth_error ps k = Some (mkPop ms s (dctx_new (ec_F (eo_C (sc_E S0))) (ds_n_rows d)) None).
Proof.
  induction n as [|n IH]; intros i h ps h' Hi; cbn [init_pops] in Hi; [injection Hi as <- _; split; auto; lia|].
  apply bind_ok in Hi as ([[ms s] h1] & H1 & Hi). apply bind_ok in Hi as ([ps1 h2] & H2 & Hi). injection Hi as <- _. destruct (IH _ _ _ _ H2) as [Hl Hk]. split; [cbn; lia|].
  intros [|k] Hlt; [rewrite Nat.add_0_r; exists h, ms, s, h1; auto|]. destruct (Hk k ltac:(lia)) as (ha & m2 & s2 & hb & E1 & E2). rewrite Nat.add_succ_r. exists ha, m2, s2, hb. auto.
Qed.
Lemma init_search_nth {T W} (S0 : search_cfg T W) d bl st : init_search S0 d bl = Ok st -> List.length (ss_pops st) = sc_populations S0 /\ ss_order st = sc_order S0 /\ forall i, i < sc_populations S0 ->
  exists h1 ms s h2, init_members S0 (sc_population_size S0) d bl (mkEvoSt (sc_seed S0 i) (evaluator_new (ec_F (eo_C (sc_E S0))) (ds_n_rows d)) (i * sc_stride S0) 0) h1 = Ok (ms, s, h2)
    /\ nth_error (ss_pops st) i = Some (Some (mkPop ms s (dctx_new (ec_F (eo_C (sc_E S0))) (ds_n_rows d)) None)).
Proof.
  unfold init_search. intros Hi. apply bind_ok in Hi as ([ps h] & H1 & Hi). apply bind_ok in Hi as (b & _ & Hi). apply bind_ok in Hi as (b1 & _ & Hi). apply bind_ok in Hi as (subs & _ & Hi).
  injection Hi as <-. cbn [ss_pops ss_order]. apply init_pops_nth in H1 as [L Hk]. rewrite map_length. split; auto. split; auto. intros i Hi. destruct (Hk i Hi) as (h1 & ms & s & h2 & E1 & E2).
  exists h1, ms, s, h2. split; auto. erewrite map_nth_error; eauto.
Qed.
Lemma history_reseed {T W} (S0 : search_cfg T W) f full bl st1 st2 i : isolated S0 -> nth_error (ss_pops st1) i = nth_error (ss_pops st2) i -> ss_order st1 = ss_order st2 ->
  forall n ps rs, history S0 full bl st1 i n ps rs -> history (reseed S0 f) full bl st2 i n ps rs.
Proof.
  intros Iso Hn Ho. induction 1 as [ps Hp|n ps rs o g j cur st r Hh IH Hor Hj Hl Hx]; [constructor; congruence|].
  apply (HsTask (reseed S0 f) full bl st2 i n ps rs o g j cur st r); auto. cbn [reseed sc_populations]. rewrite <- Ho. exact Hor.
Qed.

(** Each population has its own generator: the population a search starts with depends on no other generator, and if the populations exchange nothing, nor does the
    population it ends with, whatever the schedules. *)
Theorem C68_own_generator : forall (T W : Type) (S0 : search_cfg T W) f full bl st0 st0' i,
  init_search S0 full bl = Ok st0 -> init_search (reseed S0 f) full bl = Ok st0' -> f i = sc_seed S0 i ->
  nth_error (ss_pops st0) i = nth_error (ss_pops st0') i
  /\ forall threads threads' es c es' c', isolated S0 ->
       csteps S0 full bl (n_workers S0 threads) (parallel_start S0 st0) es c -> finished c ->
       csteps (reseed S0 f) full bl (n_workers S0 threads') (parallel_start S0 st0') es' c' -> finished c' ->
       nth_error (ss_pops (co_st c)) i = nth_error (ss_pops (co_st c')) i.
Proof.
  intros T W S0 f full bl st0 st0' i H1 H2 Hf. pose proof (init_search_nth _ _ _ _ H1) as (L1 & O1 & N1). pose proof (init_search_nth _ _ _ _ H2) as (L2 & O2 & N2). cbn [reseed sc_populations sc_order] in L2, O2, N2.
  assert (Heq : nth_error (ss_pops st0) i = nth_error (ss_pops st0') i).
  { destruct (Nat.lt_ge_cases i (sc_populations S0)) as [Hl|Hl]; [|rewrite !(proj2 (nth_error_None _ i)) by lia; reflexivity].
    destruct (N1 i Hl) as (h1 & ms & s & h2 & E1 & ->). destruct (N2 i Hl) as (h1' & ms' & s' & h2' & E1' & ->). cbn [reseed sc_E sc_seed sc_stride sc_population_size] in E1'. rewrite Hf in E1'.
    destruct (init_members_same S0 f _ _ _ _ _ _ _ _ _ _ _ _ E1 E1') as [<- <-]. reflexivity. }
  split; auto. intros th th' es c es' c' Iso K1 F1 K2 F2. destruct (csteps_receives S0 full bl _ _ _ _ K1) as (r1 & R1). destruct (csteps_receives (reseed S0 f) full bl _ _ _ _ K2) as (r2 & R2).
  assert (Iso' : isolated (reseed S0 f)) by (destruct Iso; split; auto).
  destruct (run_tracked S0 full bl _ st0 r1 c Iso H1 R1 F1) as (f1 & A1 & B1 & _). destruct (run_tracked (reseed S0 f) full bl _ st0' r2 c' Iso' H2 R2 F2) as (f2 & A2 & B2 & _).
  cbn [reseed sc_populations sc_niterations] in A2, B2.
  destruct (Nat.lt_ge_cases i (sc_populations S0)) as [Hl|Hl]; [|rewrite !(proj2 (nth_error_None _ i)) by lia; reflexivity].
  destruct (A1 i Hl) as (p1 & -> & h1). destruct (A2 i Hl) as (p2 & -> & h2). apply (history_reseed S0 f full bl st0 st0' i Iso Heq) in h1; [|congruence].
  destruct (history_unique (reseed S0 f) full bl st0' Iso' i _ _ _ h1 _ _ h2) as [-> _]. reflexivity.
Qed.

(** What does not hold: that searches with different seeds start from independent populations. The code seeds the generator of population [i] with [seed + i], so
    population [i + 1] of a search starts with the formulas of population [i] of the search with the next seed. *)
Theorem C68_neighbouring_seeds_refuted : forall (T W : Type) (S0 : search_cfg T W) (generator : nat -> rng T) seed full bl st0 st1 i p0 p1,
  init_search (reseed S0 (fun i => generator (seed + i))) full bl = Ok st0 -> init_search (reseed S0 (fun i => generator (seed + 1 + i))) full bl = Ok st1 ->
  nth_error (ss_pops st0) (i + 1) = Some (Some p0) -> nth_error (ss_pops st1) i = Some (Some p1) ->
  map m_expr (ps_pop p0) = map m_expr (ps_pop p1).
Proof.
  intros T W S0 gen seed full bl st0 st1 i p0 p1 H0 H1 P0 P1. apply init_search_nth in H0 as (L0 & _ & N0). apply init_search_nth in H1 as (L1 & _ & N1). cbn [reseed sc_populations] in *.
  assert (Hl : i + 1 < sc_populations S0) by (rewrite <- L0; apply nth_error_Some; congruence).
  destruct (N0 (i + 1) Hl) as (h1 & ms & s & h2 & E1 & E2). destruct (N1 i ltac:(lia)) as (h1' & ms' & s' & h2' & E1' & E2'). rewrite E2 in P0. rewrite E2' in P1. injection P0 as <-. injection P1 as <-. cbn [ps_pop].
  cbn [reseed sc_E sc_seed sc_stride sc_population_size] in E1, E1'.
  refine (init_members_exprs (reseed S0 (fun i => gen (seed + i))) (fun i => gen (seed + 1 + i)) full bl _ _ _ _ _ _ _ _ _ _ _ _ E1 E1'). cbn [es_rng]. f_equal. lia.
Qed.

(** *** Cases *)

(** Two populations of two members, two iterations, with or without migration. *)
Definition two_pops (migration : bool) (u : nat -> nat) (v : nat -> nat) : search_cfg xq xq :=
  mkSearch evo_demo3 2 2 2 false 3 1 migration (XF (1 # 2)) migration (XF (1 # 2)) (fun r _ => (1, r))
    (fun i => mkRng (fun n => u n + i) (fun n => XF (Qmake (Z.of_nat (Nat.modulo (v n + 2 + i) 5)) 7)))
    (mkRng (fun n => n) (fun _ => XF 0)) 100 xqops (fun n => XF (inject_Z (Z.of_nat n))) (fun _ => 0) (XF 0).
Lemma two_pops_ok b u v : search_ok (two_pops b u v) demo_data 9.
Proof. destruct missed_ok as [A1 A2 A3]. split; [exact A1|exact A2|exact A3]. Qed.
(** With two workers, the results arrive in the order of dispatch, or the other way round in each iteration ([out_of_order]). [Deliver k] is the k-th task in flight. *)
Definition in_order : list event :=
  [NewIteration; Dispatch 1 9; Dispatch 0 9; Deliver 0; Deliver 0; NewIteration; Dispatch 0 9; Dispatch 1 9; Deliver 0; Deliver 0].
Definition ends (c : @coord xq) : bool := match co_left c, co_tasks c, co_flight c with 0, [], [] => true | _, _, _ => false end.
Lemma ends_finished c : ends c = true -> finished c.
Proof. unfold ends, finished. destruct (co_left c), (co_tasks c), (co_flight c); try discriminate; auto. Qed.
Definition both {A} (f : @coord xq -> @coord xq -> A) (S0 : search_cfg xq xq) (es1 es2 : list event) : option A :=
  match init_search S0 demo_data None with
  | Ok st => match exec S0 demo_data None 2 (parallel_start S0 st) es1, exec S0 demo_data None 2 (parallel_start S0 st) es2 with
             | Some c1, Some c2 => if ends c1 && ends c2 then Some (f c1 c2) else None
             | _, _ => None
             end
  | _ => None
  end.
Lemma both_inv {A} (f : @coord xq -> @coord xq -> A) S0 es1 es2 x : both f S0 es1 es2 = Some x ->
  exists st0 es1 es2 c1 c2, init_search S0 demo_data None = Ok st0 /\ csteps S0 demo_data None 2 (parallel_start S0 st0) es1 c1 /\ finished c1
    /\ csteps S0 demo_data None 2 (parallel_start S0 st0) es2 c2 /\ finished c2 /\ f c1 c2 = x.
Proof.
  unfold both. destruct (init_search S0 demo_data None) as [st0| |]; try discriminate. destruct (exec _ _ _ _ _ es1) as [c1|] eqn:E1; [|discriminate]. destruct (exec _ _ _ _ _ es2) as [c2|] eqn:E2; [|discriminate].
  destruct (ends c1 && ends c2) eqn:Ee; [|discriminate]. apply andb_true_iff in Ee as [F1 F2]. intros [= <-].
  apply exec_sound in E1 as (k1 & K1 & _). apply exec_sound in E2 as (k2 & K2 & _). exists st0, k1, k2, c1, c2. auto 10 using ends_finished.
Qed.
Definition losses (c : @coord xq) : list (option (list xq)) :=
  map (option_map (fun p => map (fun m => match m_loss m with XF q => XF (Qred q) | x => x end) (ps_pop p))) (ss_pops (co_st c)).

(** With migration the schedule matters: with the same seeds and the same number of workers, two runs end with best members of different loss. *)
Theorem C68_reproducible_refuted : exists (S0 : search_cfg xq xq) st0 es1 c1 es2 c2,
  search_ok S0 demo_data 9 /\ sc_migration S0 = true /\ init_search S0 demo_data None = Ok st0
  /\ csteps S0 demo_data None (n_workers S0 2) (parallel_start S0 st0) es1 c1 /\ finished c1
  /\ csteps S0 demo_data None (n_workers S0 2) (parallel_start S0 st0) es2 c2 /\ finished c2
  /\ beats (ec_F (eo_C (sc_E S0))) (ss_best (co_st c1)) (ss_best (co_st c2)).
Proof.
  assert (E : both (fun c1 c2 => fltb xqops (m_loss (ss_best (co_st c1))) (m_loss (ss_best (co_st c2))) || fltb xqops (m_loss (ss_best (co_st c2))) (m_loss (ss_best (co_st c1))))
    (two_pops true (fun n => n) (fun n => 2 * n)) in_order out_of_order = Some true) by (vm_compute; reflexivity).
  apply both_inv in E as (st0 & es1 & es2 & c1 & c2 & Hi & K1 & F1 & K2 & F2 & E). exists (two_pops true (fun n => n) (fun n => 2 * n)), st0.
  apply orb_true_iff in E as [E|E]; [exists es1, c1, es2, c2|exists es2, c2, es1, c1].
  all: split; [apply two_pops_ok|]; split; [reflexivity|]; split; [exact Hi|].
  - split; [exact K1|]. split; [exact F1|]. split; [exact K2|]. split; [exact F2|exact E].
  - split; [exact K2|]. split; [exact F2|]. split; [exact K1|]. split; [exact F1|exact E].
Qed.

(** Without migration, the same two schedules: different arrival orders, the same populations. *)
Example C68_case : isolated (two_pops false (fun n => n * 2 + 1) (fun n => n * 3)) /\ search_ok (two_pops false (fun n => n * 2 + 1) (fun n => n * 3)) demo_data 9
  /\ OrderLaws (ec_F (eo_C (sc_E (two_pops false (fun n => n * 2 + 1) (fun n => n * 3)))))
  /\ exists st0 es1 es2 c1 c2, init_search (two_pops false (fun n => n * 2 + 1) (fun n => n * 3)) demo_data None = Ok st0
  /\ csteps (two_pops false (fun n => n * 2 + 1) (fun n => n * 3)) demo_data None 2 (parallel_start (two_pops false (fun n => n * 2 + 1) (fun n => n * 3)) st0) es1 c1 /\ finished c1
  /\ csteps (two_pops false (fun n => n * 2 + 1) (fun n => n * 3)) demo_data None 2 (parallel_start (two_pops false (fun n => n * 2 + 1) (fun n => n * 3)) st0) es2 c2 /\ finished c2
  /\ (losses c1, losses c2, ss_evals (co_st c1)) = ([Some [XF (59 # 2); XF (59 # 2)]; Some [XF (13 # 4); XF (13 # 4)]], [Some [XF (59 # 2); XF (59 # 2)]; Some [XF (13 # 4); XF (13 # 4)]], 25).
Proof.
  split; [split; reflexivity|]. split; [apply two_pops_ok|]. split; [exact xq_order_laws|].
  apply (both_inv (fun c1 c2 => (losses c1, losses c2, ss_evals (co_st c1))) _ in_order out_of_order). vm_compute. reflexivity.
Qed.

(** Two searches whose second generators differ start with the same first population and different second ones; and with generators one apart, the second population
    of the one starts with the formulas of the first of the other. *)
Definition two_gen (seed : nat) : rng xq := mkRng (fun n => n * 2 + 1 + seed) (fun n => XF (Qmake (Z.of_nat (Nat.modulo (n * 3 + 2 + seed) 5)) 7)).
Definition start_exprs (f : nat -> rng xq) : option (list (option (list (expr xq)))) :=
  match init_search (reseed (two_pops false (fun n => n * 2 + 1) (fun n => n * 3)) f) demo_data None with
  | Ok st => Some (map (option_map (fun p => map m_expr (ps_pop p))) (ss_pops st))
  | _ => None
  end.
Example C68_generator_case : exists a b c, a <> b /\ b <> c
  /\ start_exprs (fun i => two_gen (7 + i)) = Some [Some a; Some b] /\ start_exprs (fun i => two_gen (7 + 3 * i)) = Some [Some a; Some c]
  /\ exists d, start_exprs (fun i => two_gen (7 + 1 + i)) = Some [Some b; Some d].
Proof.
  eexists _, _, _. split; [|split; [|split; [vm_compute; reflexivity|split; [vm_compute; reflexivity|eexists; vm_compute; reflexivity]]]]; intros H; discriminate H.
Qed.

Print Assumptions C68_alone.
Print Assumptions C68_schedule.
Print Assumptions C68_engine.
Print Assumptions C68_arrival_order.
Print Assumptions C68_own_generator.
Print Assumptions C68_neighbouring_seeds_refuted.
Print Assumptions C68_reproducible_refuted.
