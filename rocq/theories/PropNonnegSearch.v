(** Property C75, continued: every loss and cost a search stores. *)
From Coq Require Import QArith SpecFloat.
From Verif Require Import Base BaseLemmas Node Compile Eval Deriv Instances Rng Registry Mutation Complexity Num Member SortProofs PropHof Selection PropSelection Simplify Conditioning Dataset
  Loss PropLoss Optim PropOptim ConstOpt Frames Evolution PropEvolution Search PropSearch PropIds Ready Invariant PropWhole PropBest PropNonneg.
Local Open Scope nat_scope.

(** ** The weights of a mini-batch are weights of the data *)
Lemma resample_weights {T W} (P : T -> Prop) (full : dataset T) : (forall s, ds_weights full = Some s -> Forall P s) -> forall k i b (r : rng W) b' r',
  resample_loop k i b full r = Ok (b', r') -> (ds_weights b <> None -> ds_weights full <> None) ->
  (forall w, ds_weights b = Some w -> List.length w = i + k /\ forall j x, j < i -> nth_error w j = Some x -> P x) ->
  forall w, ds_weights b' = Some w -> Forall P w.
Proof.
  intros Hf. induction k as [|k IH]; intros i b r b' r' H Hs Hb w Hw; cbn [resample_loop] in H.
  - injection H as <- _. destruct (Hb w Hw) as [Hl Hj]. apply Forall_forall. intros x Hx. apply In_nth_error in Hx as (j & Hx). apply (Hj j); auto.
    rewrite <- (Nat.add_0_r i), <- Hl. apply nth_error_Some. congruence.
  - apply bind_ok in H as ([src r1] & _ & H). apply bind_ok in H as (x & _ & H). apply bind_ok in H as (yv & _ & H). apply bind_ok in H as (y & _ & H).
    apply bind_ok in H as (w' & Hw' & H). eapply IH; [exact H| | |exact Hw]; cbn [ds_weights].
    + destruct (ds_weights b) as [d|] eqn:Ed; [intros _; apply Hs; discriminate|]. injection Hw' as <-. congruence.
    + intros w2 ->. destruct (ds_weights b) as [d|] eqn:Ed; [|discriminate]. destruct (ds_weights full) as [s|] eqn:Es; [|exfalso; apply Hs; auto; discriminate].
      apply bind_ok in Hw' as (v & Hv & Hw'). apply bind_ok in Hw' as (d' & Hd & Hw'). injection Hw' as <-. destruct (Hb d eq_refl) as [Hl Hj].
      unfold set_index in Hd. destruct (i <? List.length d) eqn:Ei; [|discriminate]. injection Hd as <-. apply Nat.ltb_lt in Ei.
      rewrite upd_length. split; [lia|]. intros j q0 Hlt Hn. destruct (Nat.eq_dec j i) as [->|Ne].
      * rewrite nth_error_upd_same in Hn by auto. injection Hn as <-. specialize (Hf s eq_refl). rewrite Forall_forall in Hf. apply Hf.
        unfold index in Hv. destruct (nth_error s src) eqn:En; [|discriminate]. cbn in Hv. injection Hv as ->. eapply nth_error_In; eauto.
      * rewrite nth_error_upd_other in Hn by auto. apply (Hj j); auto. lia.
Qed.
Lemma phase_weights {T W} (S0 : search_cfg T W) (P : T -> Prop) full ps d ps' : (forall s, ds_weights full = Some s -> Forall P s) ->
  phase S0 full ps = Ok (d, ps') -> forall w, ds_weights d = Some w -> Forall P w.
Proof.
  intros Hf H. unfold phase in H. destruct (sc_batching S0); [|injection H as <- _; exact Hf]. destruct (ds_n_rows full =? 0); [discriminate|]. cbv zeta in H.
  apply bind_ok in H as (b & _ & H). apply bind_ok in H as ([b' g] & Hr & H). injection H as <- _. unfold resample_from in Hr. destruct (ds_n_rows full =? 0); [discriminate|].
  do 4 (apply bind_ok in Hr as (? & _ & Hr)). apply bind_ok in Hr as (u & Ha & Hr). unfold assert_ in Ha. eapply resample_weights; [exact Hf|exact Hr| |].
  - intros Hn. destruct (ds_weights b) as [w|]; [|congruence]. destruct (List.length w =? ds_n_rows b); [|discriminate]. cbn [bind] in Ha. destruct (ds_weights full); discriminate.
  - intros w Ew. rewrite Ew in Ha. destruct (Nat.eqb_spec (List.length w) (ds_n_rows b)) as [El|]; [|discriminate]. split; [cbn; auto|]. intros j q0 Hj. lia.
Qed.

(** ** Every loss a search computes has a property the loss function's finite values have *)
Section Values.
Context {T W : Type} (S0 : search_cfg T W) (full : dataset T) (bl : option T) (B : nat) (H : search_ok S0 full B).
Local Notation E := (sc_E S0).
Local Notation C := (eo_C (sc_E S0)).
Local Notation F := (ec_F (eo_C (sc_E S0))).
Local Notation maxsize := (sel_maxsize (eo_sel (sc_E S0))).
Local Notation nf := (ds_n_features full).
Context (Q P : T -> Prop).
Local Notation nu m := (Q (m_loss m)).
Local Notation okd d := (forall w, ds_weights d = Some w -> Forall P w).
Hypothesis Qinf : Q (finf F).
Hypothesis Qloss : forall d yhat l, okd d -> lf_loss (ec_loss C) yhat (ds_y d) (ds_weights d) = Ok l -> ffinite F l = true -> Q l.
Hypothesis Hfull : okd full.

Lemma evaluate_q m d b ev m' ev' ok : okd d -> evaluate C m d b ev = Ok (m', ev', ok) -> nu m'.
Proof.
  intros Hd. unfold evaluate. intros Hv. apply bind_ok in Hv as ([[sc yhat] k] & _ & Hv). cbv zeta in Hv. apply bind_ok in Hv as (c & _ & Hv).
  destruct (negb k); [injection Hv as <- _ _; exact Qinf|]. apply bind_ok in Hv as (l & Hl & Hv). destruct (ffinite F l) eqn:Ef; cbn [negb] in Hv; injection Hv as <- _ _; [|exact Qinf].
  cbn. eapply Qloss; eauto.
Qed.
Lemma copy_q id b m m' n : nu m -> copy_parent E id b m n = Ok m' -> nu m'.
Proof. unfold copy_parent. intros Hm Hc. apply bind_ok in Hc as (x & _ & Hc). injection Hc as <-. exact Hm. Qed.
Lemma next_generation_q s m d temp cur st baby acc k s' : okd d -> nu m -> next_generation E s m d bl temp cur st = Ok (baby, acc, k, s') -> nu baby.
Proof.
  intros Hd Hm Hng. unfold next_generation in Hng. cbv zeta in Hng.
  apply bind_ok in Hng as ([c g] & _ & Hng). apply bind_ok in Hng as ([[[found evals] g1] ev1] & Ha & Hng). destruct found as [[tree imm]|].
  - destruct imm.
    + apply bind_ok in Hng as (b1 & Hb1 & Hng). apply bind_ok in Hng as (b2 & Hb2 & Hng). apply bind_ok in Hng as (cx & _ & Hng). injection Hng as <- _ _ _. exact Hm.
    + apply bind_ok in Hng as (b1 & Hb1 & Hng). apply bind_ok in Hng as ([[b2 ev2] ok] & He & Hng). apply evaluate_q in He; auto. destruct (_ || _).
      * apply bind_ok in Hng as (rj & Hrj & Hng). injection Hng as <- _ _ _. exact (copy_q _ _ _ _ _ Hm Hrj).
      * apply bind_ok in Hng as (prob & _ & Hng). destruct (rng_real g1) as [u g2]. destruct (fltb F prob u).
        -- apply bind_ok in Hng as (rj & Hrj & Hng). injection Hng as <- _ _ _. exact (copy_q _ _ _ _ _ Hm Hrj).
        -- injection Hng as <- _ _ _. exact He.
  - apply bind_ok in Hng as (rj & Hrj & Hng). injection Hng as <- _ _ _. exact (copy_q _ _ _ _ _ Hm Hrj).
Qed.
Lemma crossover_q m1 m2 d cur : okd d -> nu m1 -> nu m2 -> forall n s b1 b2 acc k s', crossover_loop E n s m1 m2 d bl cur = Ok (b1, b2, acc, k, s') -> nu b1 /\ nu b2.
Proof.
  intros Hd T1 T2. induction n as [|n IH]; intros s b1 b2 acc k s' Hc; [cbn in Hc; injection Hc as <- <- _ _ _; auto|]. cbn [crossover_loop] in Hc.
  apply bind_ok in Hc as ([[c1 c2] g] & Hx & Hc). apply bind_ok in Hc as (ok1 & Hk1 & Hc). apply bind_ok in Hc as (ok & Hk & Hc).
  destruct ok; [|eapply IH; exact Hc]. cbv zeta in Hc.
  apply bind_ok in Hc as (y1 & Hy1 & Hc). apply bind_ok in Hc as (y2 & Hy2 & Hc). apply bind_ok in Hc as ([[z1 ev1] o1] & Hz1 & Hc).
  apply bind_ok in Hc as ([[z2 ev2] o2] & Hz2 & Hc). injection Hc as <- <- <- _ <-. split; eapply evaluate_q; eauto.
Qed.
Lemma evol_step_q cur pop s d temp st pop' s' k : okd d -> Forall (fun m => nu m) pop -> evol_step E pop s d bl temp cur st = Ok (pop', s', k) -> Forall (fun m => nu m) pop'.
Proof.
  intros Hd Hp Hs. cut (each_new (fun m => nu m) pop pop').
  { intros [_ Hn]. rewrite Forall_forall in *. intros m Hm. destruct (Hn m Hm) as [Hi|]; auto. }
  unfold evol_step in Hs. destruct (rng_real (es_rng s)) as [u g]. rewrite Forall_forall in Hp.
  destruct (fgtb F u (eo_crossover_prob E)).
  - apply bind_ok in Hs as ([a g1] & Ht & Hs). apply tournament_in in Ht. apply bind_ok in Hs as ([[[b acc] k1] s1] & Hn & Hs).
    apply next_generation_q in Hn; auto. destruct (negb acc && eo_skip_failures E); [injection Hs as <- _ _; apply each_new_refl|].
    apply bind_ok in Hs as (p1 & Hrp & Hs). injection Hs as <- _ _. eapply replace_oldest_new; eauto.
  - apply bind_ok in Hs as ([a1 g1] & Ht1 & Hs). apply tournament_in in Ht1. apply bind_ok in Hs as ([a2 g2] & Ht2 & Hs). apply tournament_in in Ht2.
    apply bind_ok in Hs as ([[[[b1 b2] acc] k1] s1] & Hn & Hs). apply crossover_q in Hn as [Hb1 Hb2]; auto.
    destruct (negb acc && eo_skip_failures E); [injection Hs as <- _ _; apply each_new_refl|].
    apply bind_ok in Hs as (p1 & Hrp & Hs). injection Hs as <- _ _. eapply replace_two_new; eauto.
Qed.
Lemma evol_steps_q cur d temp st : okd d -> forall n pop s ev pop' s' k, Forall (fun m => nu m) pop ->
  evol_steps E n pop s d bl temp cur st ev = Ok (pop', s', k) -> Forall (fun m => nu m) pop'.
Proof.
  intros Hd. induction n as [|n IH]; intros pop s ev pop' s' k Hp Hs; cbn in Hs; [injection Hs as <- _ _; auto|].
  apply bind_ok in Hs as ([[p1 s1] k1] & H1 & Hs). apply evol_step_q in H1; auto. eapply IH; [|exact Hs]; auto.
Qed.
Lemma evaluate_members_q d : okd d -> forall ms ev ms' ev', evaluate_members E ms ev d bl = Ok (ms', ev') -> Forall (fun m => nu m) ms'.
Proof.
  intros Hd. induction ms as [|m ms IH]; intros ev ms' ev' Hm; cbn in Hm; [injection Hm as <- _; constructor|].
  apply bind_ok in Hm as ([[m1 ev1] ok] & H1 & Hm). apply bind_ok in Hm as ([ms1 ev2] & H2 & Hm). injection Hm as <- _. constructor; [eapply evaluate_q; eauto|eauto].
Qed.
Lemma second_half_q pop s gc d pop' s' gc' k : optimize_and_simplify_population E pop s gc full d bl = Ok (pop', s', gc', k) -> Forall (fun m => nu m) pop'.
Proof.
  intros Ho. unfold optimize_and_simplify_population in Ho. apply bind_ok in Ho as (p1 & _ & Ho). apply bind_ok in Ho as ([[[p2 s2] gc2] k2] & _ & Ho).
  apply bind_ok in Ho as ([p3 ev3] & E3 & Ho). injection Ho as <- _ _ _. eapply evaluate_members_q; [|exact E3]. exact Hfull.
Qed.

Local Notation Pq := (fun m => sound E nf B bl m /\ Q (m_loss m)).
Local Notation Pf := (within E maxsize).
Lemma sr_cycles_q cur d st nn : okd d -> forall idx pop s best ev pop' s' best' k, Forall (fun m => nu m) pop ->
  (forall c m, stored best c m -> nu m) -> sr_cycles E idx nn pop s best d bl cur st ev = Ok (pop', s', best', k) -> forall c m, stored best' c m -> nu m.
Proof.
  intros Hd. induction idx as [|i idx IH]; intros pop s best ev pop' s' best' k Hp Hb Hs; cbn in Hs; [injection Hs as _ _ <- _; auto|].
  apply bind_ok in Hs as ([[p1 s1] k1] & H1 & Hs). apply bind_ok in Hs as (b1 & Hu & Hs). unfold reg_evol_cycle in H1.
  apply evol_steps_q in H1; auto. eapply IH; [| |exact Hs]; auto. eapply (update_hof_all S0 (fun m => nu m)); eauto.
Qed.
Lemma s_r_cycle_q cur d pop s st pop' s' best k : okd d -> Forall (fun m => nu m) pop ->
  s_r_cycle E pop s d bl cur st = Ok (pop', s', best, k) -> forall c m, stored best c m -> nu m.
Proof.
  unfold s_r_cycle. intros Hd Hp Hs. apply bind_ok in Hs as (b & Hb & Hs). eapply sr_cycles_q; [exact Hd|exact Hp| |exact Hs].
  eapply (update_hof_all S0 (fun m => nu m)); [|exact Hp|exact Hb]. intros c m Hst. unfold stored, hof_new, fill in Hst. apply nth_error_In, repeat_spec in Hst. discriminate.
Qed.
Lemma task_q t r : pop_inv S0 full Pq (tk_pop t) -> tk_cur t <= maxsize -> execute_task S0 full bl t = Ok r ->
  pop_inv S0 full Pq (tr_pop r) /\ Forall Pq (ps_pop (tr_pop r)) /\ forall c m, stored (tr_seen r) c m -> Pq m.
Proof.
  intros (L & S1 & R) Hc Hx. assert (S2 : Forall (sound E nf B bl) (ps_pop (tk_pop t))) by (eapply Forall_impl; [|exact S1]; cbn; tauto).
  destruct (task_sound S0 full bl B H t r L S2 R Hc Hx) as (L' & S' & R' & Hs').
  assert (S3 : Forall (fun m => nu m) (ps_pop (tk_pop t))) by (eapply Forall_impl; [|exact S1]; cbn; tauto).
  unfold execute_task in Hx. apply bind_ok in Hx as ([d1 ps1] & P1 & Hx). apply bind_ok in Hx as ([[[p1 s1] h1] k1] & C1 & Hx).
  apply bind_ok in Hx as ([d2 ps2] & P2 & Hx). apply bind_ok in Hx as ([[[p2 s2] gc] k2] & C2 & Hx). apply bind_ok in Hx as (sub & _ & Hx). injection Hx as <-.
  cbn [tr_pop tr_seen ps_pop ps_st] in *. pose proof (phase_weights S0 P full _ _ _ Hfull P1) as W1. destruct (phase_frame S0 full _ _ _ P1) as (_ & A2 & _). rewrite A2 in C1.
  apply second_half_q in C2. pose proof (s_r_cycle_q _ _ _ _ _ _ _ _ _ W1 S3 C1) as C1'.
  assert (G : Forall Pq p2) by (rewrite Forall_forall in *; auto). split; [split; [|split]; auto|]. split; auto. intros c m Hst. split; eauto.
Qed.
Lemma inv_q :
  (forall st, init_search S0 full bl = Ok st -> st_inv S0 full Pq Pq Pq Pf st)
  /\ (forall nw c1 es c2, co_inv S0 full Pq Pq Pq Pf c1 -> csteps S0 full bl nw c1 es c2 -> co_inv S0 full Pq Pq Pq Pf c2)
  /\ (forall st l st', st_inv S0 full Pq Pq Pq Pf st -> advances S0 full bl st l st' -> st_inv S0 full Pq Pq Pq Pf st').
Proof.
  apply (use_inv S0 full bl B H); auto; try tauto.
  - intros m id p b [S1 T1]. split; [apply sound_copy; auto|exact T1].
  - apply task_q.
  - intros m m' ev ev' ok Hw Hp Hr Hv Hs. split; auto. eapply evaluate_q; [|exact Hv]. exact Hfull.
Qed.
Lemma use_q :
  (forall nw st0 es c, init_search S0 full bl = Ok st0 -> csteps S0 full bl nw (parallel_start S0 st0) es c -> where_ S0 Pq Pq Pq c)
  /\ (forall st0 l st, init_search S0 full bl = Ok st0 -> advances S0 full bl st0 l st -> where_ S0 Pq Pq Pq (mkCoord st 0 [] [])).
Proof. exact (use_where S0 full bl Pq Pq Pq inv_q). Qed.
End Values.

(** ** Theorems *)
From Coq Require Import Reals.
From Flocq Require Import Core IEEE754.BinarySingleNaN.
From Verif Require Import Ieee PropIeee.

Section Priced.
Context {T : Type} (F : FloatOps T) (LO : LossOps T) (L : NonnegLaws F LO).
Lemma cost_nonneg loss n parsimony ub bl : ffinite F parsimony = true -> at_least_0 F parsimony -> ffinite F (lo_of_nat LO n) = true ->
  at_least_0 F loss -> at_least_0 F (loss_to_cost F LO loss n parsimony ub bl).
Proof.
  intros Fp Hp Fn Hl. unfold loss_to_cost. cbv zeta. apply (nl_sum F LO L).
  - destruct (nl_cent F LO L) as [C1 C2]. destruct ub; [|apply (nl_ratio F LO L); auto]. destruct bl as [b|]; [|apply (nl_ratio F LO L); auto].
    destruct (ffinite F b) eqn:Fb; cbn [andb]; [|apply (nl_ratio F LO L); auto]. destruct (fgeb F b (lo_cent LO)) eqn:E; [|apply (nl_ratio F LO L); auto].
    apply (nl_ratio F LO L); auto. apply (nl_floor F LO L); auto.
  - apply (nl_product F LO L); auto. apply (nl_number F LO L); auto. apply (nl_nat F LO L).
Qed.
End Priced.

(** A loss is never below zero: any IEEE format, any predictions, targets and non-negative weights, infinities and NaNs included. [LO] has the format's absolute
    value, square root and conversion from naturals, any half from 0 to 1, any positive 0.01. *)
Theorem C75_loss : forall prec emax (Hp : Prec_gt_0 prec) (Hm : Prec_lt_emax prec emax) (LO : LossOps (binary_float prec emax)) k yhat y w l,
  let F := bops prec emax Hp Hm in
  ieee_loss_ops prec emax Hp Hm LO -> proper_loss F LO k -> (forall v, w = Some v -> Forall (fun x => fltb F x (fzero F) = false) v) ->
  lf_loss (make_loss F LO k) yhat y w = Ok l -> fltb F l (fzero F) = false.
Proof. intros prec emax Hp Hm LO k yhat y w l F HL Hk Hw H. exact (nb_loss F LO (ieee_laws prec emax Hp Hm LO HL) k Hk yhat y w l Hw H). Qed.

(** What the search stores. *)
Definition nonneg_search {T W} (S0 : search_cfg T W) (k : loss_kind T) (full : dataset T) : Prop :=
  let C := eo_C (sc_E S0) in let F := ec_F C in
  ec_loss C = make_loss F (ec_LO C) k /\ proper_loss F (ec_LO C) k /\ (forall v, ds_weights full = Some v -> Forall (fun x => fltb F x (fzero F) = false) v)
  /\ ffinite F (ec_parsimony C) = true /\ fleb F (fzero F) (ec_parsimony C) = true /\ (forall n, n <= ec_umax C -> ffinite F (lo_of_nat (ec_LO C) n) = true).

Lemma where_nonneg {T W} (S0 : search_cfg T W) full bl B k : NonnegLaws (ec_F (eo_C (sc_E S0))) (ec_LO (eo_C (sc_E S0))) -> nonneg_search S0 k full ->
  forall m, sound (sc_E S0) (ds_n_features full) B bl m /\ at_least_0 (ec_F (eo_C (sc_E S0))) (m_loss m) ->
  at_least_0 (ec_F (eo_C (sc_E S0))) (m_loss m) /\ at_least_0 (ec_F (eo_C (sc_E S0))) (m_cost m).
Proof.
  intros L (_ & _ & _ & H4 & H5 & H6) m [[_ _ Hc Hp] Hl]. split; auto. destruct Hp as [->|[_ ->]]; [|apply (nl_inf _ _ L)]. unfold cost_of.
  apply (cost_nonneg _ _ L); auto. apply H6. rewrite Hc. apply Nat.le_min_l.
Qed.
Lemma search_nonneg {T W} (S0 : search_cfg T W) full bl B k : search_ok S0 full B -> NonnegLaws (ec_F (eo_C (sc_E S0))) (ec_LO (eo_C (sc_E S0))) -> nonneg_search S0 k full ->
  let ok m := at_least_0 (ec_F (eo_C (sc_E S0))) (m_loss m) /\ at_least_0 (ec_F (eo_C (sc_E S0))) (m_cost m) in
  (forall nw st0 es c, init_search S0 full bl = Ok st0 -> csteps S0 full bl nw (parallel_start S0 st0) es c -> where_ S0 ok ok ok c)
  /\ (forall st0 l st, init_search S0 full bl = Ok st0 -> advances S0 full bl st0 l st -> where_ S0 ok ok ok (mkCoord st 0 [] [])).
Proof.
  intros H L Hn. cbv zeta. pose proof (where_nonneg S0 full bl B k L Hn) as G. destruct Hn as (E1 & E2 & E3 & _).
  destruct (use_q S0 full bl B H (at_least_0 (ec_F (eo_C (sc_E S0)))) (not_below (ec_F (eo_C (sc_E S0))))) as [U1 U2].
  - apply (nl_inf _ _ L).
  - intros d yhat l Hd Hl Ff. apply (nl_number _ _ L); auto. rewrite E1 in Hl. exact (nb_loss _ _ L k E2 _ _ _ _ Hd Hl).
  - exact E3.
  - assert (Hw : forall c, where_ S0 (fun m => sound (sc_E S0) (ds_n_features full) B bl m /\ at_least_0 (ec_F (eo_C (sc_E S0))) (m_loss m))
        (fun m => sound (sc_E S0) (ds_n_features full) B bl m /\ at_least_0 (ec_F (eo_C (sc_E S0))) (m_loss m))
        (fun m => sound (sc_E S0) (ds_n_features full) B bl m /\ at_least_0 (ec_F (eo_C (sc_E S0))) (m_loss m)) c ->
      where_ S0 (fun m => at_least_0 (ec_F (eo_C (sc_E S0))) (m_loss m) /\ at_least_0 (ec_F (eo_C (sc_E S0))) (m_cost m))
        (fun m => at_least_0 (ec_F (eo_C (sc_E S0))) (m_loss m) /\ at_least_0 (ec_F (eo_C (sc_E S0))) (m_cost m))
        (fun m => at_least_0 (ec_F (eo_C (sc_E S0))) (m_loss m) /\ at_least_0 (ec_F (eo_C (sc_E S0))) (m_cost m)) c).
    { intros c (W1 & W2 & W3 & W4 & W5). split; [|split; [|split; [|split]]].
      - intros i ps Hl. destruct (W1 i ps Hl) as [A1 A2]. split; auto. eapply Forall_impl; [|exact A2]. exact G.
      - apply G, W2.
      - intros ms m Hms Hm. eapply G, W3; eauto.
      - exact W4.
      - intros n m Hst. destruct (W5 n m Hst) as (A1 & A2 & A3 & A4). split; auto. }
    split; intros; apply Hw; eauto.
Qed.

(** Every loss and cost of a search in an IEEE format is a number not below zero or +infinity, never negative and never NaN: in every population, in every task under
    way, in every list of best members, in the hall of fame and for the overall best, whatever the schedule. *)
Theorem C75_search : forall prec emax (Hp : Prec_gt_0 prec) (Hm : Prec_lt_emax prec emax) (W : Type) (S0 : search_cfg (binary_float prec emax) W) k full bl B threads st0 es c,
  let F := bops prec emax Hp Hm in
  ec_F (eo_C (sc_E S0)) = F -> ieee_loss_ops prec emax Hp Hm (ec_LO (eo_C (sc_E S0))) -> search_ok S0 full B -> nonneg_search S0 k full ->
  init_search S0 full bl = Ok st0 -> csteps S0 full bl (n_workers S0 threads) (parallel_start S0 st0) es c ->
  let ok m := fleb F (fzero F) (m_loss m) = true /\ fleb F (fzero F) (m_cost m) = true in
  (forall i ps, located c i ps -> Forall ok (ps_pop ps)) /\ ok (ss_best (co_st c))
  /\ (forall ms m, In ms (ss_subs (co_st c)) -> In m ms -> ok m) /\ (forall n m, stored (ss_hall (co_st c)) n m -> ok m).
Proof.
  intros prec emax Hp Hm W S0 k full bl B th st0 es c F EF HL Hok Hn Hi Hc. cbv zeta. subst F. pose proof (ieee_laws prec emax Hp Hm _ HL) as L. rewrite <- EF in *.
  destruct (proj1 (search_nonneg S0 full bl B k Hok L Hn) _ _ _ _ Hi Hc) as (U1 & U2 & U3 & _ & U5).
  split; [intros i ps Hl; exact (proj2 (U1 i ps Hl))|]. split; [exact U2|]. split; [exact U3|]. intros n m Hst. exact (proj1 (proj2 (proj2 (U5 n m Hst)))).
Qed.
Theorem C75_engine : forall prec emax (Hp : Prec_gt_0 prec) (Hm : Prec_lt_emax prec emax) (W : Type) (S0 : search_cfg (binary_float prec emax) W) k full B en0 ns en ks,
  let F := bops prec emax Hp Hm in
  ec_F (eo_C (sc_E S0)) = F -> ieee_loss_ops prec emax Hp Hm (ec_LO (eo_C (sc_E S0))) -> search_ok S0 full B -> nonneg_search S0 k full ->
  engine_new S0 full = Ok en0 -> steps S0 en0 ns = Ok (en, ks) ->
  let ok m := fleb F (fzero F) (m_loss m) = true /\ fleb F (fzero F) (m_cost m) = true in
  (forall i ps, nth_error (ss_pops (en_st en)) i = Some (Some ps) -> Forall ok (ps_pop ps)) /\ ok (ss_best (en_st en))
  /\ (forall ms m, In ms (ss_subs (en_st en)) -> In m ms -> ok m) /\ (forall n m, stored (ss_hall (en_st en)) n m -> ok m).
Proof.
  intros prec emax Hp Hm W S0 k full B en0 ns en ks F EF HL Hok Hn Hen Hs. cbv zeta. subst F. pose proof (ieee_laws prec emax Hp Hm _ HL) as L. rewrite <- EF in *.
  destruct (C37_cycles _ W S0 full en0 ns en ks Hen Hs) as (l & Ha & _).
  unfold engine_new in Hen. apply bind_ok in Hen as (bl & _ & Hen). apply bind_ok in Hen as (st & Hi & Hen). injection Hen as <-. cbn [en_st en_bl] in *.
  destruct (proj2 (search_nonneg S0 full bl B k Hok L Hn) _ _ _ Hi Ha) as (U1 & U2 & U3 & _ & U5).
  split; [intros i ps Hl; exact (proj2 (U1 i ps (or_introl Hl)))|]. split; [exact U2|]. split; [exact U3|]. intros n m Hst. exact (proj1 (proj2 (proj2 (U5 n m Hst)))).
Qed.

(** *** Cases *)
Definition loss64 : LossOps f64 :=
  mkLossOps Babs (Bsqrt mode_NE) (fun x => x) (fun x => x) (fun x => x) (fun x _ => x) (b_of_nat 53 1024 prec64 max64) (lit64 2 0) (lit64 1 (-1)) (lit64 5764607523034235 (-59)).
Lemma loss64_ok : ieee_loss_ops 53 1024 prec64 max64 loss64.
Proof.
  split; [reflexivity|]. split; [reflexivity|]. split; [reflexivity|].
  assert (A : is_finite (lo_half loss64) = true) by (vm_compute; reflexivity). assert (B : is_finite (lo_cent loss64) = true) by (vm_compute; reflexivity).
  split; split; auto; [split|].
  - apply (le_fin 53 1024 prec64 max64 (fzero F64)); [reflexivity|exact A|vm_compute; reflexivity].
  - replace 1%R with (B2R (fone F64)) by apply (one_fin 53 1024 prec64 max64). apply (le_fin 53 1024 prec64 max64); [exact A|apply (one_fin 53 1024 prec64 max64)|vm_compute; reflexivity].
  - apply (lt_fin 53 1024 prec64 max64 (fzero F64)); [reflexivity|exact B|vm_compute; reflexivity].
Qed.
Definition cfg64 : eval_cfg f64 :=
  mkEvalCfg F64 loss64 (rational_ops F64) hash0 (u16_max + 1) 2 (mkSizeOpts 1 1 None [] 10 [] []) (make_loss F64 loss64 (LQuantile (lit64 1 (-2)))) (lit64 1 (-10)) true.
Definition evo64 : evo_cfg f64 :=
  mkEvo cfg64 (mkOptCfg F64 opt64 (fun x => Some x) (fun x => Some x) false 2 0 0 (lit64 0 0) bt64)
    [[]; [(2, 0); (2, 5)]]
    (mkWeights (lit64 0 0) (lit64 1 0) (lit64 0 0) (lit64 0 0) (lit64 0 0) (lit64 1 0) (lit64 0 0) (lit64 1 0) (lit64 0 0) (lit64 0 0) (lit64 0 0) (lit64 0 0))
    true (lit64 1 (-1)) (fun _ _ _ v => v) (mkCfg (Some 0) (Some 5) (Some 7)) false (lit64 1 0) false (fun x => x) (lit64 1 (-20))
    (b_of_nat 53 1024 prec64 max64) (lit64 1 (-3)) true (mkSel 2 (lit64 1 0) false (lit64 0 0) 9) 20 [] 3.
Definition search64 : search_cfg f64 f64 :=
  mkSearch evo64 2 2 2 true 3 1 true (lit64 1 (-1)) true (lit64 1 (-1)) (fun r _ => (1, r))
    (fun i => mkRng (fun n => n * 2 + 1 + i) (fun n => lit64 (Z.of_nat (Nat.modulo (n * 3 + 2 + i) 5)) (-3)))
    (mkRng (fun n => n) (fun _ => lit64 0 0)) 100 F64 (b_of_nat 53 1024 prec64 max64) (fun _ => 0) (lit64 0 0).
Definition data64 : dataset f64 :=
  mkData (mkMat [lit64 1 0; lit64 2 0; lit64 3 0] 1 3) [lit64 2 0; lit64 4 0; lit64 7 0] 1 3 (Some [lit64 1 0; lit64 1 0; lit64 3 (-2)]) (lit64 0 0).
Definition show64 (r : res (@engine f64 * list nat)) : option (spec_float * list spec_float) :=
  match r with
  | Ok (en, _) => Some (B2SF (m_loss (ss_best (en_st en))), List.concat (map (fun o => match o with Some ps => map (fun m => B2SF (m_cost m)) (ps_pop ps) | None => [] end) (ss_pops (en_st en))))
  | _ => None
  end.
Definition run_of (r : res (@engine f64)) (f : @engine f64 -> res (@engine f64 * list nat)) : option (spec_float * list spec_float) := match r with Ok en => show64 (f en) | _ => None end.
Lemma run_of_inv r f a b : run_of r f = Some (a, b) -> exists en0 en ks, r = Ok en0 /\ f en0 = Ok (en, ks) /\ B2SF (m_loss (ss_best (en_st en))) = a
  /\ List.concat (map (fun o => match o with Some ps => map (fun m => B2SF (m_cost m)) (ps_pop ps) | None => [] end) (ss_pops (en_st en))) = b.
Proof.
  destruct r as [en0| |]; try discriminate. cbn [run_of]. destruct (f en0) as [[en ks]| |] eqn:E; try discriminate. cbn [show64]. intros H. inversion H. exists en0, en, ks. auto.
Qed.
Lemma some_inj {A} (a b : A) : Some a = Some b -> a = b.
Proof. congruence. Qed.


Lemma b_of_nat_fin n : (Z.of_nat n <= 70000)%Z -> is_finite (b_of_nat 53 1024 prec64 max64 n) = true /\ True.
Proof.
  intros Hn. split; auto. unfold b_of_nat. pose proof (binary_normalize_correct 53 1024 prec64 max64 mode_NE (Z.of_nat n) 0 false) as H. cbv zeta in H.
  rewrite Rlt_bool_true in H; [apply H|]. assert (Ef : F2R (Float radix2 (Z.of_nat n) 0) = IZR (Z.of_nat n)) by (unfold F2R; cbn; ring). rewrite Ef.
  change (round_mode mode_NE) with ZnearestE. change (Rabs (rnd 53 1024 (IZR (Z.of_nat n))) < bpow radix2 1024)%R.
  assert (B : (0 <= rnd 53 1024 (IZR (Z.of_nat n)) <= bpow radix2 53)%R).
  { split; [apply r_pos; [exact prec64|apply IZR_le; lia]|]. assert (E : rnd 53 1024 (bpow radix2 53) = bpow radix2 53).
    - unfold rnd. apply round_generic; [auto with typeclass_instances|]. apply generic_format_bpow. vm_compute. discriminate.
    - rewrite <- E. apply rnd_le; [exact prec64|]. change (bpow radix2 53) with (IZR (2 ^ 53)). apply IZR_le. lia. }
  rewrite Rabs_pos_eq by apply B. apply (Rle_lt_trans _ _ _ (proj2 B)). apply bpow_lt. lia.
Qed.
Lemma search64_ok : search_ok search64 data64 9.
Proof.
  split; [|lia|].
  - change (evo_ok evo64 1 9 9). split.
    + split; [|split; [unfold u16_max; lia|cbn; unfold u8_max; lia]]. split; [reflexivity|]. intros [|[|[|a]]] op Ha Hin; cbn in Ha; try lia; cbn in Hin; try tauto.
      destruct Hin as [<-|[<-|[]]]; split; reflexivity.
    + constructor; cbn [evo64 cfg64 eo_C ec_umax ec_D ec_size eo_stale ec_O]; try discriminate; cbn; try (unfold u16_max; lia); try discriminate.
    + intros [f|i|a op]; cbn; lia.
    + cbn. lia.
    + cbn. unfold u16_max. lia.
  - intros rem cur Hg. change (sel_maxsize (eo_sel (sc_E search64))) with 9 in *. unfold get_cur_maxsize in Hg. cbv zeta in Hg.
    assert (E : fltb (sc_F32 search64) (fzero (sc_F32 search64)) (sc_warmup_by search64) = false) by (vm_compute; reflexivity).
    rewrite E in Hg. cbn [andb] in Hg. injection Hg as <-. lia.
Qed.
Lemma run64_val : run_of (@engine_new f64 f64 search64 data64) (fun en => @steps f64 f64 search64 en [2; 1]) = Some (S754_finite false 4597158071333981 (-52),
      [S754_finite false 4507997673881600 (-52); S754_finite false 8998794099186438 (-53); S754_finite false 5426309785400115 (-52); S754_finite false 4513495232020480 (-50)]).
Proof. vm_cast_no_check (@eq_refl (option (spec_float * list spec_float)) (Some (S754_finite false 4597158071333981 (-52),
      [S754_finite false 4507997673881600 (-52); S754_finite false 8998794099186438 (-53); S754_finite false 5426309785400115 (-52); S754_finite false 4513495232020480 (-50)]))). Qed.
Lemma search64_nonneg : nonneg_search search64 (LQuantile (lit64 1 (-2))) data64.
Proof.
  split; [reflexivity|]. split; [split; vm_compute; reflexivity|]. split.
  - intros v Hv. change (ds_weights data64) with (Some [lit64 1 0; lit64 1 0; lit64 3 (-2)]) in Hv. apply some_inj in Hv as <-. repeat constructor; vm_compute; reflexivity.
  - split; [vm_compute; reflexivity|]. split; [vm_compute; reflexivity|]. intros n Hn. change (ec_umax _) with (u16_max + 1) in Hn. assert (E : Z.of_nat u16_max = 65535%Z) by reflexivity.
    destruct (b_of_nat_fin n) as [H _]; [clear - Hn E; lia|exact H].
Qed.
(** A search in binary64, with mini-batches, weights and the quantile loss, goes through two tasks of each population; the costs are distinct and inexact. *)
Example C75_case : ieee_loss_ops 53 1024 prec64 max64 (ec_LO (eo_C (sc_E search64))) /\ search_ok search64 data64 9 /\ nonneg_search search64 (LQuantile (lit64 1 (-2))) data64
  /\ exists en0 en ks, engine_new search64 data64 = Ok en0 /\ steps search64 en0 [2; 1] = Ok (en, ks) /\ B2SF (m_loss (ss_best (en_st en))) = S754_finite false 4597158071333981 (-52)
  /\ List.concat (map (fun o => match o with Some ps => map (fun m => B2SF (m_cost m)) (ps_pop ps) | None => [] end) (ss_pops (en_st en)))
     = [S754_finite false 4507997673881600 (-52); S754_finite false 8998794099186438 (-53); S754_finite false 5426309785400115 (-52); S754_finite false 4513495232020480 (-50)].
Proof. exact (conj loss64_ok (conj search64_ok (conj search64_nonneg (run_of_inv _ _ _ _ run64_val)))). Qed.

(** Outside those premises a loss can be negative: a quantile of 2; a weight of -1 (one row of weight -1 and one of weight 2). *)
Theorem C75_quantile_refuted : exists l, lf_loss (make_loss F64 loss64 (LQuantile (lit64 2 0))) [lit64 2 0] [lit64 1 0] None = Ok l
  /\ fltb F64 l (fzero F64) = true.
Proof. eexists. split; [reflexivity|]. vm_compute. reflexivity. Qed.
Theorem C75_weights_refuted : exists l, lf_loss (make_loss F64 loss64 LMse) [lit64 2 0; lit64 0 0] [lit64 0 0; lit64 0 0] (Some [lit64 (-1) 0; lit64 2 0]) = Ok l
  /\ fltb F64 l (fzero F64) = true.
Proof. eexists. split; [reflexivity|]. vm_compute. reflexivity. Qed.
Print Assumptions C75_loss.
Print Assumptions C75_search.
Print Assumptions C75_engine.
