(** Properties C30 and C35 inside a search: what the frequency statistics of a running search are, and which data its phases see. *)
From Coq Require Import QArith.
From Verif Require Import Base BaseLemmas Node Compile Eval Deriv Rng Registry Mutation Complexity Num Member PropHof Selection PropStats Simplify Conditioning Dataset PropDataset Loss PropLoss
  Optim PropOptim ConstOpt Evolution PropEvolution Search PropSearch PropIds.
Local Open Scope nat_scope.

(** ** C30: the statistics of a search *)

(** The statistics after the populations with these complexities were delivered, one after the other, in a search with size limit [n]: all counters
    start at 1; each population is counted, then the total is brought back to the window of 100000. *)
Definition statistics_after {T} (F : FloatOps T) (of_nat : nat -> T) (eps : T) (n : nat) (delivered : list (list nat)) : stats T :=
  stat_run F of_nat eps (flat_map (fun sizes => [ObserveAll sizes; MoveWindow]) delivered) (stats_new F of_nat n (100 * 1000)).

Section Stats.
Context {T W : Type} (S0 : search_cfg T W).
Local Notation E := (sc_E S0).
Local Notation F := (ec_F (eo_C (sc_E S0))).
Local Notation stats_of h := (statistics_after F (eo_of_nat E) (eo_eps E) (sel_maxsize (eo_sel E)) h).

Lemma apply_stats st r st' : apply_task_result S0 st r = Ok st' ->
  ss_stats st' = move_window F (eo_of_nat E) (eo_eps E) (update_from_population F (ss_stats st) (map m_complexity (ps_pop (tr_pop r)))) /\ ss_completed st' = ss_completed st + 1.
Proof.
  unfold apply_task_result. cbv zeta. intros H. apply bind_ok in H as (subs & H1 & H). apply bind_ok in H as (x & H2 & H). apply bind_ok in H as (h1 & H3 & H).
  apply bind_ok in H as ([h2 b] & H4 & H). apply bind_ok in H as (ps1 & H5 & H). apply bind_ok in H as (ps2 & H6 & H). apply bind_ok in H as (pops & H7 & H).
  injection H as <-. auto.
Qed.
Lemma init_stats d bl st : init_search S0 d bl = Ok st -> ss_stats st = stats_of [] /\ ss_completed st = 0.
Proof.
  unfold init_search. intros H. apply bind_ok in H as ([ps h] & _ & H). apply bind_ok in H as (b & _ & H). apply bind_ok in H as (b1 & _ & H).
  apply bind_ok in H as (subs & _ & H). injection H as <-. auto.
Qed.
Lemma stats_snoc h sizes s : s = stats_of h -> move_window F (eo_of_nat E) (eo_eps E) (update_from_population F s sizes) = stats_of (h ++ [sizes]).
Proof. intros ->. unfold statistics_after, stat_run. rewrite flat_map_app, fold_left_app. reflexivity. Qed.
End Stats.

(** The delivered complexities of a run of the coordinator, in order. *)
Inductive delivers {T W} (S0 : search_cfg T W) (full : dataset T) (bl : option T) (nw : nat) : @coord T -> list (list nat) -> @coord T -> Prop :=
| DNil c : delivers S0 full bl nw c [] c
| DQuiet c1 e c2 h c3 : cstep S0 full bl nw c1 e c2 -> (forall i, e <> Deliver i) -> delivers S0 full bl nw c2 h c3 -> delivers S0 full bl nw c1 h c3
| DDeliver c1 c2 h c3 t r : cstep S0 full bl nw c1 (Deliver (tk_idx t)) c2 -> In t (co_flight c1) -> execute_task S0 full bl t = Ok r ->
    apply_task_result S0 (co_st c1) r = Ok (co_st c2) -> delivers S0 full bl nw c2 h c3 ->
    delivers S0 full bl nw c1 (map m_complexity (ps_pop (tr_pop r)) :: h) c3.

(** Whatever the schedule, the statistics are determined by the complexities of the populations delivered, in the order of delivery. *)
Theorem C30_search : forall (T W : Type) (S0 : search_cfg T W) full bl threads st0 es c,
  init_search S0 full bl = Ok st0 -> csteps S0 full bl (n_workers S0 threads) (parallel_start S0 st0) es c ->
  exists delivered, delivers S0 full bl (n_workers S0 threads) (parallel_start S0 st0) delivered c
    /\ List.length delivered = ss_completed (co_st c)
    /\ ss_stats (co_st c) = statistics_after (ec_F (eo_C (sc_E S0))) (eo_of_nat (sc_E S0)) (eo_eps (sc_E S0)) (sel_maxsize (eo_sel (sc_E S0))) delivered.
Proof.
  intros T W S0 full bl th st0 es c Hi Hc. apply init_stats in Hi as [Hs Hd].
  set (nw := n_workers S0 th) in *. set (stats_of := statistics_after (ec_F (eo_C (sc_E S0))) (eo_of_nat (sc_E S0)) (eo_eps (sc_E S0)) (sel_maxsize (eo_sel (sc_E S0)))).
  assert (G : forall c1 es c2, csteps S0 full bl nw c1 es c2 -> forall h0, ss_stats (co_st c1) = stats_of h0 -> List.length h0 = ss_completed (co_st c1) ->
    exists h, delivers S0 full bl nw c1 h c2 /\ ss_stats (co_st c2) = stats_of (h0 ++ h) /\ List.length (h0 ++ h) = ss_completed (co_st c2)).
  { intros c1 es0 c2 H. induction H as [c1|c1 e c2 es1 c3 H1 _ IH]; intros h0 Hh Hl.
    - exists []. rewrite app_nil_r. split; [constructor|auto].
    - assert (Q : (forall i, e <> Deliver i) -> ss_stats (co_st c2) = ss_stats (co_st c1) -> ss_completed (co_st c2) = ss_completed (co_st c1) ->
        exists h, delivers S0 full bl nw c1 h c3 /\ ss_stats (co_st c3) = stats_of (h0 ++ h) /\ List.length (h0 ++ h) = ss_completed (co_st c3)).
      { intros He E1 E2. destruct (IH h0) as (h & D & E3); try congruence. exists h. split; auto. eapply DQuiet; eauto. }
      destruct H1 as [st n order g Hsh|st n i tasks fl Hl2 Hdp|st n i tasks fl st' t Hl2 Hdp|st n tasks fl1 t fl2 r st' Hw He Ha].
      + apply Q; auto. discriminate.
      + apply Q; auto. discriminate.
      + apply dispatch_some in Hdp as (_ & _ & _ & _ & _ & _ & D1 & _ & D2 & _). apply Q; auto. discriminate.
      + pose proof (apply_stats S0 _ _ _ Ha) as [A1 A2]. cbn [co_st] in *. set (sizes := map m_complexity (ps_pop (tr_pop r))) in *.
        destruct (IH (h0 ++ [sizes])) as (h & D & E1 & E2).
        * rewrite A1. apply stats_snoc. exact Hh.
        * rewrite app_length, A2. cbn. lia.
        * exists (sizes :: h). rewrite <- !app_assoc in *. cbn [app] in *. split; [|auto].
          eapply DDeliver with (t := t) (r := r); [eapply CDeliver; eauto|apply in_elt|exact He|exact Ha|exact D]. }
  destruct (G _ _ _ Hc [] Hs) as (h & D & E1 & E2); auto. exists h. auto.
Qed.

(** A dispatched task carries the statistics of that moment, normalised, and its evolution selects with them. *)
Theorem C30_task : forall (T W : Type) (S0 : search_cfg T W) full bl st i st1 t r,
  dispatch S0 st i = Ok (Some (st1, t)) -> execute_task S0 full bl t = Ok r ->
  exists d ps pop s seen evals, s_r_cycle (sc_E S0) (ps_pop (tk_pop t)) (ps_st ps) d bl (tk_cur t) (normalize (ec_F (eo_C (sc_E S0))) (ss_stats st)) = Ok (pop, s, seen, evals)
    /\ phase S0 full (tk_pop t) = Ok (d, ps) /\ tr_seen r = seen.
Proof.
  intros T W S0 full bl st i st1 t r Hd H. apply dispatch_some in Hd as (_ & _ & _ & _ & _ & _ & _ & _ & _ & _ & Hst & _). unfold execute_task in H.
  apply bind_ok in H as ([d1 ps1] & H1 & H). apply bind_ok in H as ([[[p1 s1] h1] k1] & H2 & H). apply bind_ok in H as ([d2 ps2] & H3 & H).
  apply bind_ok in H as ([[[p2 s2] gc] k2] & H4 & H). apply bind_ok in H as (sub & _ & H). injection H as <-. pose proof (phase_ids _ _ _ _ _ H1) as [P1 _].
  rewrite Hst, P1 in H2. exists d1, ps1, p1, s1, h1, k1. auto.
Qed.

(** In exact arithmetic: the frequencies of a search with at most 1001 sizes stay positive, and the window is 100000. *)
Theorem C30_search_positive : forall (T W : Type) (S0 : search_cfg T W) (val : T -> Q) full bl threads st0 es c,
  let F := ec_F (eo_C (sc_E S0)) in let n := sel_maxsize (eo_sel (sc_E S0)) in
  ExactLaws F val -> (forall k, ffinite F (eo_of_nat (sc_E S0) k) = true /\ (val (eo_of_nat (sc_E S0) k) == inject_Z (Z.of_nat k))%Q) ->
  ffinite F (eo_eps (sc_E S0)) = true /\ (0 < val (eo_eps (sc_E S0)))%Q -> n <= 1001 ->
  init_search S0 full bl = Ok st0 -> csteps S0 full bl (n_workers S0 threads) (parallel_start S0 st0) es c ->
  let s := ss_stats (co_st c) in
  List.length (st_freq s) = n /\ (forall v, In v (st_freq s) -> ffinite F v = true /\ (1 <= val v)%Q) /\ (val (st_window s) == inject_Z (Z.of_nat (100 * 1000)))%Q.
Proof.
  intros T W S0 val full bl th st0 es c F n X Ho He Hn Hi Hc s. destruct (C30_search T W S0 full bl th st0 es c Hi Hc) as (h & _ & _ & Hs).
  destruct (C30_history F val X (eo_of_nat (sc_E S0)) (eo_eps (sc_E S0)) Ho He n (100 * 1000) (flat_map (fun sizes => [ObserveAll sizes; MoveWindow]) h) Hn) as ((H1 & _ & H2 & _) & H3).
  unfold s. rewrite Hs. unfold statistics_after. fold F n. split; [exact H1|]. split; [|exact H3]. intros v Hv. rewrite Forall_forall in H2. apply H2. exact Hv.
Qed.

(** ** C35: the data of a phase *)
(** A phase with batching sees as many rows as a batch has, each a copy of a row of the full data, drawn with the generator of the population; without batching it
    sees the full data. The batch buffer kept for later fits again. Members and counters are not touched. *)
Theorem C35_phase : forall (T W : Type) (S0 : search_cfg T W) (full : dataset T) (ps : pop_state T),
  dataset_ok full -> 1 <= ds_n_rows full -> (forall b, ps_batch ps = Some b -> fit b full) ->
  exists d ps', phase S0 full ps = Ok (d, ps')
    /\ ps_pop ps' = ps_pop ps /\ es_id (ps_st ps') = es_id (ps_st ps) /\ es_birth (ps_st ps') = es_birth (ps_st ps)
    /\ (forall b, ps_batch ps' = Some b -> fit b full)
    /\ (sc_batching S0 = false -> d = full /\ ps' = ps)
    /\ (sc_batching S0 = true ->
          dataset_ok d /\ ds_n_rows d = Nat.max (sc_batch_size S0) 1 /\ ds_n_features d = ds_n_features full /\ (weighted d <-> weighted full)
          /\ exists b, fit b full /\ ds_n_rows b = Nat.max (sc_batch_size S0) 1 /\ resample_from b full (es_rng (ps_st ps)) = Ok (d, es_rng (ps_st ps'))
          /\ exists rows, List.length rows = Nat.max (sc_batch_size S0) 1 /\ forall i j, nth_error rows i = Some j -> j < ds_n_rows full /\ same_row d i full j).
Proof.
  intros T W S0 full ps Hd Hn Hb. unfold phase. destruct (sc_batching S0); [|exists full, ps; split; [reflexivity|]; split; auto; split; auto; split; auto; split; auto; split; [auto|discriminate]].
  destruct (Nat.eqb_spec (ds_n_rows full) 0); [lia|]. cbv zeta. set (bs := Nat.max (sc_batch_size S0) 1). set (F := ec_F (eo_C (sc_E S0))). set (on := eo_of_nat (sc_E S0)).
  assert (H1 : exists b, (if match ps_batch ps with None => true | Some b => negb (ds_n_rows b =? bs) || negb (ds_n_features b =? ds_n_features full) end
      then make_batch_buffer F on full bs else expect (ps_batch ps)) = Ok b /\ fit b full /\ ds_n_rows b = bs).
  { assert (Hnew : exists b, make_batch_buffer F on full bs = Ok b /\ fit b full /\ ds_n_rows b = bs).
    { destruct (C35_buffer_fits T F on full bs Hd Hn) as (b & E1 & E2 & E3 & _). exists b. split; auto. split; auto. unfold bs in *. lia. }
    destruct (ps_batch ps) as [b|]; auto. destruct (Nat.eqb_spec (ds_n_rows b) bs) as [Hbs|]; cbn [negb orb]; auto.
    destruct (Nat.eqb_spec (ds_n_features b) (ds_n_features full)); cbn [negb]; auto. exists b. split; auto. }
  destruct H1 as (b & -> & Hf & Hr). cbn [bind]. destruct (C35_resample_rows T T b full (es_rng (ps_st ps)) Hf) as (b' & r' & rows & E & B1 & B2 & B3 & B4 & B5 & B6).
  rewrite E. cbn [bind]. do 2 eexists. split; [reflexivity|]. cbn [ps_pop ps_st es_id es_birth es_rng ps_batch]. split; auto. split; auto. split; auto.
  assert (Hfit : fit b' full). { destruct Hf as (F1 & F2 & F3 & F4 & F5). split; auto. }
  split; [intros b0 [= <-]; exact Hfit|]. split; [discriminate|]. intros _. split; auto. split; [congruence|]. split; auto. split; auto.
  exists b. split; auto. split; auto. split; auto. exists rows. split; [congruence|exact B6].
Qed.

(** A task evolves on one batch and optimises on another. *)
Theorem C35_task : forall (T W : Type) (S0 : search_cfg T W) (full : dataset T) bl t r,
  dataset_ok full -> 1 <= ds_n_rows full -> (forall b, ps_batch (tk_pop t) = Some b -> fit b full) -> execute_task S0 full bl t = Ok r ->
  exists d1 ps1 pop s seen k1 d2 ps2 pop2 s2 gc2 k2,
    phase S0 full (tk_pop t) = Ok (d1, ps1)
    /\ s_r_cycle (sc_E S0) (ps_pop ps1) (ps_st ps1) d1 bl (tk_cur t) (tk_stats t) = Ok (pop, s, seen, k1)
    /\ phase S0 full (mkPop pop s (ps_gc ps1) (ps_batch ps1)) = Ok (d2, ps2)
    /\ optimize_and_simplify_population (sc_E S0) (ps_pop ps2) (ps_st ps2) (ps_gc ps2) full d2 bl = Ok (pop2, s2, gc2, k2)
    /\ ps_pop (tr_pop r) = pop2
    /\ (forall b, ps_batch ps1 = Some b -> fit b full) /\ (forall b, ps_batch (tr_pop r) = Some b -> fit b full).
Proof.
  intros T W S0 full bl t r Hd Hn Hb H. unfold execute_task in H.
  apply bind_ok in H as ([d1 ps1] & H1 & H). apply bind_ok in H as ([[[p1 s1] h1] k1] & H2 & H). apply bind_ok in H as ([d2 ps2] & H3 & H).
  apply bind_ok in H as ([[[p2 s2] gc] k2] & H4 & H). apply bind_ok in H as (sub & _ & H). injection H as <-.
  destruct (C35_phase T W S0 full (tk_pop t) Hd Hn Hb) as (e1 & q1 & E1 & _ & _ & _ & F1 & _). rewrite E1 in H1. injection H1 as -> ->.
  destruct (C35_phase T W S0 full (mkPop p1 s1 (ps_gc ps1) (ps_batch ps1)) Hd Hn F1) as (e2 & q2 & E2 & _ & _ & _ & F2 & _). rewrite E2 in H3. injection H3 as -> ->.
  exists d1, ps1, p1, s1, h1, k1, d2, ps2, p2, s2, gc, k2. split; auto. auto 10.
Qed.

(** ** Cases *)
(** The search of [C38_case]: its four tasks delivered six members of complexity 7 and two of complexity 9. *)
Definition counters (c : @coord xq) : nat * list xq := (ss_completed (co_st c), st_freq (ss_stats (co_st c))).
Example C30_search_case : exists st0 es c, init_search (search_demo false) demo_data None = Ok st0
  /\ csteps (search_demo false) demo_data None (n_workers (search_demo false) 8) (parallel_start (search_demo false) st0) es c
  /\ counters c = (4, [XF 1; XF 1; XF 1; XF 1; XF 1; XF 1; XF 7; XF 1; XF 3]).
Proof. apply (after_inv counters (search_demo false) demo_data out_of_order). vm_compute. reflexivity. Qed.
Example C30_search_exact : ExactLaws (ec_F (eo_C (sc_E (search_demo false)))) xval
  /\ (forall k, ffinite xqops (eo_of_nat (sc_E (search_demo false)) k) = true /\ (xval (eo_of_nat (sc_E (search_demo false)) k) == inject_Z (Z.of_nat k))%Q)
  /\ (ffinite xqops (eo_eps (sc_E (search_demo false))) = true /\ (0 < xval (eo_eps (sc_E (search_demo false))))%Q) /\ sel_maxsize (eo_sel (sc_E (search_demo false))) <= 1001.
Proof. split; [exact xq_exact|]. split; [intros k; split; reflexivity|]. split; [split; reflexivity|]. apply Nat.leb_le. reflexivity. Qed.
(** With batches of one row, the first phase sees the row the generator draws: row 0 (3 modulo 3); a population starts without a buffer. *)
Definition batch_of (r : res (dataset xq * pop_state xq)) : option (nat * list xq) := match r with Ok (d, _) => Some (ds_n_rows d, ds_y d) | _ => None end.
Example C35_phase_case : dataset_ok demo_data /\ 1 <= ds_n_rows demo_data /\ sc_batching (search_demo true) = true
  /\ batch_of (phase (search_demo true) demo_data (mkPop [] (mkEvoSt (sc_seed (search_demo true) 0) (evaluator_new xqops 3) 0 0) (dctx_new xqops 3) None)) = Some (1, firstn 1 (ds_y demo_data)).
Proof. split; [repeat split; intros w [= <-]; reflexivity|]. split; [cbn; lia|]. split; [reflexivity|]. vm_compute. reflexivity. Qed.

Print Assumptions C30_search.
Print Assumptions C30_task.
Print Assumptions C30_search_positive.
Print Assumptions C35_phase.
Print Assumptions C35_task.
