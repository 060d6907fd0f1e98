(** Property C48: the best member a search reports. *)
From Coq Require Import QArith.
From Verif Require Import Base BaseLemmas Node Tree Compile Eval Deriv Simplify Rng Registry Mutation Complexity ComplexitySpec PropComplexity Num Member PropHof Selection
  Conditioning Dataset Loss PropLoss Optim PropOptim ConstOpt Evolution PropEvolution Search PropSearch PropIds Ready Invariant PropWhole Instances.
Local Open Scope nat_scope.

(** ** Specification *)

(** The member is in a population the search starts with. *)
Definition initial {T} (st : search_st T) (m : member T) : Prop := exists i ps, nth_error (ss_pops st) i = Some (Some ps) /\ In m (ps_pop ps).

(** The coordinator receives the result [r] of a task in flight. *)
Definition delivery {T W} (S0 : search_cfg T W) full bl nw (c1 : @coord T) (r : task_result T) (c2 : @coord T) : Prop :=
  exists t, In t (co_flight c1) /\ execute_task S0 full bl t = Ok r /\ apply_task_result S0 (co_st c1) r = Ok (co_st c2)
    /\ cstep S0 full bl nw c1 (Deliver (tk_idx t)) c2.

(** [m] has lower loss than [b]. *)
Definition beats {T} (F : FloatOps T) (m b : member T) : Prop := fltb F (m_loss m) (m_loss b) = true.

(** ** Lemmas *)
Section Best.
Context {T W : Type} (S0 : search_cfg T W) (full : dataset T) (bl : option T) (B : nat) (H : search_ok S0 full B).
Local Notation E := (sc_E S0).
Local Notation C := (eo_C (sc_E S0)).
Local Notation F := (ec_F (eo_C (sc_E S0))).
Local Notation maxsize := (sel_maxsize (eo_sel (sc_E S0))).
Local Notation nf := (ds_n_features full).
Local Notation P0 := (sound (sc_E S0) (ds_n_features full) B bl).

Definition improves (b b' : member T) : Prop := b' = b \/ beats F b' b.
Lemma improves_trans (O : OrderLaws F) a b c : improves a b -> improves b c -> improves a c.
Proof. unfold improves, beats. intros [->|H1] [->|H2]; auto. right. eapply (ol_trans _ O); eauto. Qed.
Lemma improves_keeps (O : OrderLaws F) m a b : improves a b -> ~ beats F m a -> ~ beats F m b.
Proof. unfold improves, beats. intros [->|H1] Hn; auto. intros Hm. apply Hn. eapply (ol_trans _ O); eauto. Qed.

Lemma check_within m cur b : P0 m -> cur <= maxsize -> check E (m_expr m) cur = Ok b -> b = true <-> within E cur (m_expr m).
Proof.
  intros Hm Hc Hk. destruct (so_expr _ _ _ _ _ Hm) as (t & Hr & Ht & _).
  rewrite (check_spec E nf B cur (evo_at S0 full B H _ Hc) (m_expr m) t b Hr Ht Hk). unfold within. split; [eauto|].
  intros (t' & Hr' & Hf). unfold represents in *. assert (t' = t) by (apply NodeProofs.flatten_inj; congruence). subst. auto.
Qed.
Lemma within_mono cur cur' e : cur <= cur' -> within E cur e -> within E cur' e.
Proof. intros Hc (t & Hr & Hf). exists t. split; auto. eapply feasible_mono; eauto. Qed.

(** What offering a list of members does to the best. *)
Lemma offer_best_spec cur : cur <= maxsize -> forall ms h b h' b', Forall P0 ms -> offer_best S0 ms h b cur = Ok (h', b') ->
  (b' = b \/ (In b' ms /\ within E cur (m_expr b')))
  /\ (OrderLaws F -> improves b b' /\ forall m, In m ms -> within E cur (m_expr m) -> ~ beats F m b').
Proof.
  intros Hc. induction ms as [|x ms IH]; intros h b h' b' Hs Ho; cbn [offer_best] in Ho.
  - injection Ho as _ <-. split; auto. intros _. split; [left; auto|]. intros m [].
  - inversion Hs as [|? ? Hx Hs']; subst. apply bind_ok in Ho as (h1 & _ & Ho). apply bind_ok in Ho as (ok & Hk & Ho). pose proof (check_within x cur ok Hx Hc Hk) as Hw.
    apply IH in Ho as [H1 H2]; auto. split.
    + destruct H1 as [->|[H1 H3]]; [|right; split; [right|]; auto]. destruct (ok && fltb F (m_loss x) (m_loss b)) eqn:Eb; [|left; auto].
      apply andb_true_iff in Eb as [-> _]. right. split; [left; auto|]. tauto.
    + intros O. destruct (H2 O) as [H3 H4].
      assert (Hxb : improves b (if ok && fltb F (m_loss x) (m_loss b) then x else b)).
      { destruct (ok && fltb F (m_loss x) (m_loss b)) eqn:Eb; [|left; auto]. apply andb_true_iff in Eb as [_ Eb]. right. exact Eb. }
      split; [eapply improves_trans; eauto|]. intros m [->|Hm] Hf; [|auto]. eapply improves_keeps; [exact O|exact H3|].
      apply Hw in Hf. subst ok. cbn [andb]. unfold beats. destruct (fltb F (m_loss m) (m_loss b)) eqn:Eb; [rewrite (ol_irr _ O)|rewrite Eb]; discriminate.
Qed.
Lemma apply_best_spec st r st' : Forall P0 (ps_pop (tr_pop r)) -> tr_cur r <= maxsize -> apply_task_result S0 st r = Ok st' ->
  (ss_best st' = ss_best st \/ (In (ss_best st') (ps_pop (tr_pop r)) /\ within E (tr_cur r) (m_expr (ss_best st'))))
  /\ (OrderLaws F -> improves (ss_best st) (ss_best st') /\ forall m, In m (ps_pop (tr_pop r)) -> within E (tr_cur r) (m_expr m) -> ~ beats F m (ss_best st')).
Proof.
  unfold apply_task_result. cbv zeta. intros Hs Hc Ha. apply bind_ok in Ha as (subs & _ & Ha). apply bind_ok in Ha as (x & _ & Ha). apply bind_ok in Ha as (h1 & _ & Ha).
  apply bind_ok in Ha as ([h2 b] & H4 & Ha). apply bind_ok in Ha as (ps1 & _ & Ha). apply bind_ok in Ha as (ps2 & _ & Ha). apply bind_ok in Ha as (pops & _ & Ha).
  injection Ha as <-. cbn [ss_best]. eapply offer_best_spec; eauto.
Qed.

Lemma init_best_spec : forall ms b o, Forall P0 ms -> init_best S0 ms b = Ok o ->
  (o = b \/ exists m, o = Some m /\ In m ms /\ within E maxsize (m_expr m))
  /\ ((exists m, In m ms /\ within E maxsize (m_expr m)) \/ b <> None -> o <> None)
  /\ (OrderLaws F -> forall m', o = Some m' -> (forall c, b = Some c -> improves c m') /\ forall m, In m ms -> within E maxsize (m_expr m) -> ~ beats F m m').
Proof.
  induction ms as [|x ms IH]; intros b o Hs Ho; cbn [init_best] in Ho.
  - injection Ho as <-. split; auto. split; [intros [(m & [] & _)|]; auto|]. intros _ m' ->. split; [intros c [= ->]; left; auto|]. intros m [].
  - inversion Hs as [|? ? Hx Hs']; subst. apply bind_ok in Ho as (ok & Hk & Ho). pose proof (check_within x maxsize ok Hx (Nat.le_refl _) Hk) as Hw.
    apply IH in Ho as (H1 & H2 & H3); auto. split; [|split].
    + destruct H1 as [->|(m & H1 & Hm & Hf)]; [|right; exists m; split; [|split]; [|right|]; auto]. destruct ok; cbn [negb]; auto.
      assert (Hwx : within E maxsize (m_expr x)) by tauto. destruct b as [c|]; [destruct (fltb _ _ _)|]; auto; right; exists x; split; auto; split; auto; left; auto.
    + intros Hex. apply H2. destruct Hex as [(m & [->|Hm] & Hf)|Hb].
      * right. apply Hw in Hf. subst ok. cbn. destruct b; [destruct (fltb _ _ _)|]; discriminate.
      * left. eauto.
      * right. destruct (negb ok); auto. destruct b; [destruct (fltb _ _ _); discriminate|congruence].
    + intros O m' Hm'. destruct (H3 O m' Hm') as [H4 H5]. split.
      * intros c ->. destruct ok; cbn [negb] in H4; [|apply H4; auto]. destruct (fltb F (m_loss x) (m_loss c)) eqn:Eb; [|apply H4; auto].
        eapply improves_trans; [exact O| |apply H4; reflexivity]. right. exact Eb.
      * intros m [->|Hm] Hf; [|auto]. apply Hw in Hf. subst ok. cbn [negb] in H4. destruct b as [c|].
        -- destruct (fltb F (m_loss m) (m_loss c)) eqn:Eb; (eapply improves_keeps; [exact O|apply H4; reflexivity|]); unfold beats; [rewrite (ol_irr _ O)|rewrite Eb]; discriminate.
        -- eapply improves_keeps; [exact O|apply H4; reflexivity|]. unfold beats. rewrite (ol_irr _ O). discriminate.
Qed.

Lemma sound_inv :
  (forall st, init_search S0 full bl = Ok st -> st_inv S0 full P0 P0 P0 (within E maxsize) st)
  /\ (forall nw c1 es c2, co_inv S0 full P0 P0 P0 (within E maxsize) c1 -> csteps S0 full bl nw c1 es c2 -> co_inv S0 full P0 P0 P0 (within E maxsize) c2)
  /\ (forall st l st', st_inv S0 full P0 P0 P0 (within E maxsize) st -> advances S0 full bl st l st' -> st_inv S0 full P0 P0 P0 (within E maxsize) st').
Proof.
  apply (use_inv S0 full bl B H); auto.
  - intros m id p b. apply sound_copy; auto.
  - intros t r (L & S1 & R) Hc Hx. destruct (task_sound S0 full bl B H t r L S1 R Hc Hx) as (? & ? & ? & ?). split; [split; [|split]|split]; auto.
Qed.

Lemma init_search_best st : init_search S0 full bl = Ok st ->
  initial st (ss_best st) /\ ((exists m, initial st m /\ within E maxsize (m_expr m)) -> within E maxsize (m_expr (ss_best st)))
  /\ (OrderLaws F -> forall m, initial st m -> within E maxsize (m_expr m) -> ~ beats F m (ss_best st)).
Proof.
  intros Hi. pose proof (proj1 sound_inv st Hi) as Hinv.
  unfold init_search in Hi. apply bind_ok in Hi as ([ps h] & H1 & Hi). apply bind_ok in Hi as (b & Hb & Hi). apply bind_ok in Hi as (b1 & Hb1 & Hi). apply bind_ok in Hi as (subs & _ & Hi).
  injection Hi as <-. cbn [ss_best].
  assert (Hin : forall m, In m (List.concat (map ps_pop ps)) <-> initial (mkSt (map Some ps) subs b1 (sc_populations S0 * sc_population_size S0) 0 0
        (stats_new F (eo_of_nat E) maxsize window_size) h (sc_order S0)) m).
  { intros m. unfold initial. cbn [ss_pops]. rewrite in_concat. split.
    - intros (l & Hl & Hm). apply in_map_iff in Hl as (p & <- & Hp). apply In_nth_error in Hp as (i & Hp). exists i, p. split; auto. now rewrite nth_error_map, Hp.
    - intros (i & p & Hp & Hm). rewrite nth_error_map in Hp. destruct (nth_error ps i) eqn:En; [|discriminate]. injection Hp as <-.
      exists (ps_pop p0). split; auto. apply in_map. eapply nth_error_In; eauto. }
  assert (Hs : Forall P0 (List.concat (map ps_pop ps))).
  { apply Forall_forall. intros m Hm. apply Hin in Hm as (i & p & Hp & Hm). destruct Hinv as [I1 _ _ _]. apply nth_error_In, I1 in Hp as (_ & Hp & _). rewrite Forall_forall in Hp. auto. }
  destruct (init_best_spec _ _ _ Hs Hb) as (B1 & B2 & B3).
  destruct b as [b|].
  - injection Hb1 as <-. destruct B1 as [[=]|(m & [= <-] & Hm & Hf)]. split; [apply Hin; auto|]. split; auto. intros O m Hm'. apply Hin in Hm'. apply (B3 O); auto.
  - assert (Hno : forall m, In m (List.concat (map ps_pop ps)) -> within E maxsize (m_expr m) -> False) by (intros m Hm Hf; apply B2; eauto).
    split; [|split].
    + apply bind_ok in Hb1 as (p & Hp & Hb1). apply Hin. apply in_concat. exists (ps_pop p). split.
      * apply in_map. destruct ps; [discriminate|]. cbn in Hp. injection Hp as ->. left; auto.
      * unfold index in Hb1. destruct (nth_error (ps_pop p) 0) eqn:En; [|discriminate]. cbn in Hb1. injection Hb1 as ->. eapply nth_error_In; eauto.
    + intros (m & Hm & Hf). apply Hin in Hm. exfalso. eauto.
    + intros _ m Hm Hf _. apply Hin in Hm. eauto.
Qed.

(** One action of the coordinator. *)
Lemma delivered_sound nw c1 r c2 : co_inv S0 full P0 P0 P0 (within E maxsize) c1 -> delivery S0 full bl nw c1 r c2 ->
  Forall P0 (ps_pop (tr_pop r)) /\ tr_cur r <= maxsize.
Proof.
  intros [_ Hf] (t & Ht & Hx & _). destruct (Hf t Ht) as ((L & S1 & R) & Hc). destruct (task_sound S0 full bl B H t r L S1 R Hc Hx) as (_ & ? & _).
  apply execute_idx in Hx as [_ ->]. auto.
Qed.
Lemma cstep_best nw c1 e c2 : cstep S0 full bl nw c1 e c2 -> ss_best (co_st c2) = ss_best (co_st c1) \/ exists r, delivery S0 full bl nw c1 r c2.
Proof.
  intros Hs. pose proof Hs as Hs0. destruct Hs; cbn [co_st]; auto.
  - apply dispatch_some in H1. left. tauto.
  - right. exists r. exists t. cbn [co_flight co_st]. split; [apply in_app_iff; right; left; auto|]. auto.
Qed.
Lemma cstep_improves nw c1 e c2 : co_inv S0 full P0 P0 P0 (within E maxsize) c1 -> cstep S0 full bl nw c1 e c2 -> OrderLaws F -> improves (ss_best (co_st c1)) (ss_best (co_st c2)).
Proof.
  intros Hi Hs O. destruct (cstep_best _ _ _ _ Hs) as [->|(r & Hd)]; [left; auto|]. destruct (delivered_sound _ _ _ _ Hi Hd) as [Hf Hc].
  destruct Hd as (t & _ & _ & Ha & _). apply (apply_best_spec _ _ _ Hf Hc Ha); auto.
Qed.
Lemma csteps_improves nw c1 es c2 : co_inv S0 full P0 P0 P0 (within E maxsize) c1 -> csteps S0 full bl nw c1 es c2 -> OrderLaws F -> improves (ss_best (co_st c1)) (ss_best (co_st c2)).
Proof.
  intros Hi Hs O. induction Hs as [|c1 e c2 es c3 H1 Hs IH]; [left; auto|].
  eapply improves_trans; [exact O|eapply cstep_improves; eauto|]. apply IH. apply (proj1 (proj2 sound_inv) nw c1 [e] c2 Hi). econstructor; [exact H1|constructor].
Qed.
Lemma csteps_app nw c1 es c2 es' c3 : csteps S0 full bl nw c1 es c2 -> csteps S0 full bl nw c2 es' c3 -> csteps S0 full bl nw c1 (es ++ es') c3.
Proof. induction 1; cbn; auto. intros. econstructor; eauto. Qed.
Lemma csteps_origin nw c0 es c : co_inv S0 full P0 P0 P0 (within E maxsize) c0 -> csteps S0 full bl nw c0 es c -> ss_best (co_st c) = ss_best (co_st c0)
  \/ exists es1 c1 r c2 es2, csteps S0 full bl nw c0 es1 c1 /\ delivery S0 full bl nw c1 r c2 /\ csteps S0 full bl nw c2 es2 c
       /\ In (ss_best (co_st c)) (ps_pop (tr_pop r)) /\ within E (tr_cur r) (m_expr (ss_best (co_st c))) /\ tr_cur r <= maxsize.
Proof.
  intros Hi Hs. induction Hs as [|c0 e c1 es c H1 Hs IH]; auto.
  assert (Hi1 : co_inv S0 full P0 P0 P0 (within E maxsize) c1) by (apply (proj1 (proj2 sound_inv) nw c0 [e] c1 Hi); econstructor; [exact H1|constructor]).
  destruct (IH Hi1) as [Hb|(es1 & c2 & r & c3 & es2 & K1 & K2 & K3 & K4)].
  - rewrite Hb. destruct (cstep_best _ _ _ _ H1) as [->|(r & Hd)]; auto. destruct (delivered_sound _ _ _ _ Hi Hd) as [Hf Hc].
    pose proof Hd as (t & _ & _ & Ha & _). destruct (apply_best_spec _ _ _ Hf Hc Ha) as [[->|[A1 A2]] _]; auto. right.
    exists [], c0, r, c1, es. split; [constructor|]. auto.
  - right. exists (e :: es1), c2, r, c3, es2. split; [econstructor; eauto|auto].
Qed.
End Best.

(** ** C48 *)

(** After any actions of the parallel coordinator, under any schedule: the best is an initial member or one that a task delivered; it satisfies the constraints
    if any initial member does; and no initial member, nor any member delivered so far, that satisfied the constraints when it arrived has lower loss. *)
Theorem C48_parallel_best : forall (T W : Type) (S0 : search_cfg T W) full bl B threads st0 es c,
  search_ok S0 full B -> init_search S0 full bl = Ok st0 ->
  let nw := n_workers S0 threads in let E := sc_E S0 in let F := ec_F (eo_C E) in let maxsize := sel_maxsize (eo_sel E) in
  csteps S0 full bl nw (parallel_start S0 st0) es c ->
  let best := ss_best (co_st c) in
  (initial st0 best
   \/ exists es1 c1 r c2 es2, csteps S0 full bl nw (parallel_start S0 st0) es1 c1 /\ delivery S0 full bl nw c1 r c2 /\ csteps S0 full bl nw c2 es2 c
        /\ In best (ps_pop (tr_pop r)) /\ within E (tr_cur r) (m_expr best))
  /\ ((exists m, initial st0 m /\ within E maxsize (m_expr m)) -> within E maxsize (m_expr best))
  /\ (OrderLaws F ->
      (forall m, initial st0 m -> within E maxsize (m_expr m) -> ~ beats F m best)
      /\ (forall es1 c1 r c2 es2 m, csteps S0 full bl nw (parallel_start S0 st0) es1 c1 -> delivery S0 full bl nw c1 r c2 -> csteps S0 full bl nw c2 es2 c ->
            In m (ps_pop (tr_pop r)) -> within E (tr_cur r) (m_expr m) -> ~ beats F m best)).
Proof.
  intros T W S0 full bl B th st0 es c H Hi nw E F maxsize Hc best.
  destruct (init_search_best S0 full bl B H st0 Hi) as (I1 & I2 & I3). destruct (sound_inv S0 full bl B H) as (V1 & V2 & _).
  assert (Hv : co_inv S0 full (sound E (ds_n_features full) B bl) (sound E (ds_n_features full) B bl) (sound E (ds_n_features full) B bl) (within E maxsize) (parallel_start S0 st0))
    by (split; [apply V1; auto|intros t []]).
  split; [|split].
  - destruct (csteps_origin S0 full bl B H _ _ _ _ Hv Hc) as [Hb|(es1 & c1 & r & c2 & es2 & K1 & K2 & K3 & K4 & K5 & _)].
    + left. unfold best. rewrite Hb. exact I1.
    + right. exists es1, c1, r, c2, es2. auto.
  - intros Hex. destruct (csteps_origin S0 full bl B H _ _ _ _ Hv Hc) as [Hb|(es1 & c1 & r & c2 & es2 & K1 & K2 & K3 & K4 & K5 & K6)].
    + unfold best. rewrite Hb. apply I2. auto.
    + eapply within_mono; eauto.
  - intros O. split.
    + intros m Hm Hf. eapply improves_keeps; [exact O|eapply (csteps_improves S0 full bl B H); eauto|]. apply I3; auto.
    + intros es1 c1 r c2 es2 m K1 K2 K3 Hm Hf. pose proof (V2 _ _ _ _ Hv K1) as Hv1. destruct (delivered_sound S0 full bl B H _ _ _ _ Hv1 K2) as [Hs Hcur].
      pose proof K2 as (t & _ & _ & Ha & Hst). eapply improves_keeps; [exact O| |].
      * eapply (csteps_improves S0 full bl B H); [|exact K3|exact O]. apply (V2 nw c1 [Deliver (tk_idx t)] c2 Hv1). econstructor; [exact Hst|constructor].
      * apply (apply_best_spec S0 full bl B H _ _ _ Hs Hcur Ha); auto.
Qed.

(** The same for the stepwise engine: [l] is the sequence of populations advanced. *)
Definition turn {T W} (S0 : search_cfg T W) full bl (st : search_st T) (r : task_result T) (st' : search_st T) : Prop :=
  exists g i st1 t, dispatch S0 (with_order st g) i = Ok (Some (st1, t)) /\ execute_task S0 full bl t = Ok r /\ apply_task_result S0 st1 r = Ok st'.
Theorem C48_engine_best : forall (T W : Type) (S0 : search_cfg T W) full B en0 ns en ks,
  search_ok S0 full B -> engine_new S0 full = Ok en0 -> steps S0 en0 ns = Ok (en, ks) ->
  let E := sc_E S0 in let F := ec_F (eo_C E) in let maxsize := sel_maxsize (eo_sel E) in let bl := en_bl en0 in
  let best := ss_best (en_st en) in
  (initial (en_st en0) best \/ exists l1 st1 r st2 l2, advances S0 full bl (en_st en0) l1 st1 /\ turn S0 full bl st1 r st2 /\ advances S0 full bl st2 l2 (en_st en)
       /\ In best (ps_pop (tr_pop r)) /\ within E (tr_cur r) (m_expr best))
  /\ ((exists m, initial (en_st en0) m /\ within E maxsize (m_expr m)) -> within E maxsize (m_expr best))
  /\ (OrderLaws F ->
      (forall m, initial (en_st en0) m -> within E maxsize (m_expr m) -> ~ beats F m best)
      /\ (forall l1 st1 r st2 l2 m, advances S0 full bl (en_st en0) l1 st1 -> turn S0 full bl st1 r st2 -> advances S0 full bl st2 l2 (en_st en) ->
            In m (ps_pop (tr_pop r)) -> within E (tr_cur r) (m_expr m) -> ~ beats F m best)).
Proof.
  intros T W S0 full B en0 ns en ks H Hn Hs E F maxsize bl best.
  destruct (C37_cycles T W S0 full en0 ns en ks Hn Hs) as (l & Ha & _). fold bl in Ha.
  assert (Hi : init_search S0 full bl = Ok (en_st en0)).
  { unfold bl. unfold engine_new in Hn. apply bind_ok in Hn as (bl' & _ & Hn). apply bind_ok in Hn as (st & Hi & Hn). injection Hn as <-. exact Hi. }
  destruct (init_search_best S0 full bl B H _ Hi) as (I1 & I2 & I3). destruct (sound_inv S0 full bl B H) as (V1 & _ & V3).
  set (P0 := sound E (ds_n_features full) B bl) in *. set (inv := st_inv S0 full P0 P0 P0 (within E maxsize)) in *.
  pose proof (V1 _ Hi) as Hv0.
  assert (Hturn : forall st r st', inv st -> turn S0 full bl st r st' -> inv st' /\ Forall P0 (ps_pop (tr_pop r)) /\ tr_cur r <= maxsize
     /\ (ss_best st' = ss_best st \/ (In (ss_best st') (ps_pop (tr_pop r)) /\ within E (tr_cur r) (m_expr (ss_best st'))))
     /\ (OrderLaws F -> improves S0 (ss_best st) (ss_best st') /\ forall m, In m (ps_pop (tr_pop r)) -> within E (tr_cur r) (m_expr m) -> ~ beats F m (ss_best st'))).
  { intros st r st' Hv (g & i & st1 & t & Hd & Hx & Hap). split.
    - apply (V3 st [i] st' Hv). econstructor; [exists st1, t, r; eauto|]. assert (Hid : st' = with_order st' (ss_order st')) by (destruct st'; reflexivity). rewrite Hid at 2. constructor.
    - assert (Hv' : inv (with_order st g)) by (destruct Hv; split; auto).
      pose proof (dispatch_some _ _ _ _ _ Hd) as (D1 & _ & _ & _ & D4 & _ & _ & _ & _ & _ & _ & D9).
      pose proof (nth_error_In _ _ D1) as Hin. assert (Hp : pop_inv S0 full P0 (tk_pop t)) by (destruct Hv'; auto). destruct Hp as (L & S1 & R).
      assert (Hc : tk_cur t <= maxsize) by (eapply sk_limit; eauto). destruct (task_sound S0 full bl B H t r L S1 R Hc Hx) as (_ & Hf & _).
      pose proof (execute_idx _ _ _ _ _ Hx) as [_ Ec]. rewrite Ec. split; auto. split; auto. cbn [with_order ss_best] in D4.
      assert (Hc' : tr_cur r <= maxsize) by (rewrite Ec; auto). pose proof (apply_best_spec S0 full bl B H _ _ _ Hf Hc' Hap) as Hb. rewrite D4, Ec in Hb. exact Hb. }
  assert (Hcons : forall st g i st1, advance S0 full bl (with_order st g) i st1 -> exists r, turn S0 full bl st r st1).
  { intros st g i st1 (s1 & t & r & Hd & Hx & Hap). exists r, g, i, s1, t. auto. }
  assert (Himp : OrderLaws F -> forall st l st', inv st -> advances S0 full bl st l st' -> improves S0 (ss_best st) (ss_best st')).
  { intros O st l0 st' Hv Hadv. induction Hadv as [|st g i st1 l0 st2 H1 H2 IH]; [left; auto|]. destruct (Hcons _ _ _ _ H1) as (r & Ht).
    destruct (Hturn _ _ _ Hv Ht) as (Hv1 & _ & _ & _ & Hb). eapply improves_trans; [exact O|apply Hb; auto|auto]. }
  assert (Horig : forall st l st', inv st -> advances S0 full bl st l st' -> ss_best st' = ss_best st
     \/ exists l1 st1 r st2 l2, advances S0 full bl st l1 st1 /\ turn S0 full bl st1 r st2 /\ advances S0 full bl st2 l2 st'
          /\ In (ss_best st') (ps_pop (tr_pop r)) /\ within E (tr_cur r) (m_expr (ss_best st')) /\ tr_cur r <= maxsize).
  { intros st l0 st' Hv Hadv. induction Hadv as [|st g i st1 l0 st2 H1 H2 IH]; [left; auto|]. destruct (Hcons _ _ _ _ H1) as (r & Ht).
    destruct (Hturn _ _ _ Hv Ht) as (Hv1 & _ & Hc & Hb & _). destruct (IH Hv1) as [Eb|(l1 & s1 & r' & s2 & l2 & K1 & K2 & K3)].
    - rewrite Eb. destruct Hb as [->|[Hb1 Hb2]]; auto. right. exists [], st, r, st1, l0. split; [|auto].
      assert (Hid : st = with_order st (ss_order st)) by (destruct st; reflexivity). rewrite Hid at 2. constructor.
    - right. exists (i :: l1), s1, r', s2, l2. split; [econstructor; eauto|auto]. }
  split; [|split].
  - destruct (Horig _ _ _ Hv0 Ha) as [Eb|(l1 & s1 & r & s2 & l2 & K1 & K2 & K3 & K4 & K5 & _)]; [left; unfold best; rewrite Eb; auto|].
    right. exists l1, s1, r, s2, l2. auto.
  - intros Hex. destruct (Horig _ _ _ Hv0 Ha) as [Eb|(l1 & s1 & r & s2 & l2 & K1 & K2 & K3 & K4 & K5 & K6)]; [unfold best; rewrite Eb; auto|].
    eapply within_mono; eauto.
  - intros O. split.
    + intros m Hm Hf. eapply improves_keeps; [exact O|eapply Himp; eauto|]. apply I3; auto.
    + intros l1 s1 r s2 l2 m K1 K2 K3 Hm Hf. pose proof (V3 _ _ _ Hv0 K1) as Hv1. destruct (Hturn _ _ _ Hv1 K2) as (Hv2 & _ & _ & _ & Hb).
      eapply improves_keeps; [exact O|eapply Himp; eauto|]. apply (Hb O); auto.
Qed.

(** *** Cases *)
Definition evo_demo3 : evo_cfg xq :=
  mkEvo (demo_cfg LMse) (mkOptCfg xqops xq_opt_ops (fun x => Some x) (fun x => Some x) false 2 0 0 (XF 0) default_bt)
    [[]; [(2, 0); (2, 5)]]
    (mkWeights (XF 0) (XF 1) (XF 0) (XF 0) (XF 0) (XF 1) (XF 0) (XF 1) (XF 0) (XF 0) (XF 0) (XF 0))
    true (XF (1 # 2)) (fun _ _ _ v => v) (mkCfg (Some 0) (Some 5) (Some 7)) false (XF 1) false (fun x => x) (XF (1 # 1000000))
    (fun n => XF (inject_Z (Z.of_nat n))) (XF (1 # 10)) true (mkSel 2 (XF 1) false (XF 0) 9) 20 [] 3.
Definition missed_search : search_cfg xq xq :=
  mkSearch evo_demo3 2 2 2 false 3 1 true (XF (1 # 2)) true (XF (1 # 2)) (fun r _ => (1, r))
    (fun i => mkRng (fun n => n * 2 + 1 + i) (fun n => XF (Qmake (Z.of_nat (Nat.modulo (n * 3 + 2 + i) 5)) 7)))
    (mkRng (fun n => n) (fun _ => XF 0)) 100 xqops (fun n => XF (inject_Z (Z.of_nat n))) (fun _ => 0) (XF 0).
Lemma missed_ok : search_ok missed_search demo_data 9.
Proof.
  split; [|lia|apply demo_limit; reflexivity]. change (evo_ok evo_demo3 1 9 9). split.
  - split; [|split; [unfold u16_max; lia|cbn; unfold u8_max; lia]]. split; [reflexivity|]. intros [|[|[|a]]] op Ha Hin; cbn in Ha; try lia; cbn in Hin; try tauto.
    destruct Hin as [<-|[<-|[]]]; split; reflexivity.
  - constructor; cbn; try (unfold u16_max; lia); try discriminate.
  - intros [f|i|a op]; cbn; lia.
  - lia.
  - cbn. unfold u16_max. lia.
Qed.

(** The reported best need not have the lowest loss the search has seen: members seen during a task but lost before its end enter the hall of fame only.
    Here, at the end of a search, a member of the Pareto front beats the reported best. *)
Theorem C48_best_of_front_refuted : exists (S0 : search_cfg xq xq) full B st0 es c,
  search_ok S0 full B /\ data_ok full /\ sc_batching S0 = false /\ init_search S0 full None = Ok st0
  /\ csteps S0 full None (n_workers S0 8) (parallel_start S0 st0) es c /\ finished c
  /\ exists m, In m (pareto_front (ec_F (eo_C (sc_E S0))) (ss_hall (co_st c))) /\ within (sc_E S0) (sel_maxsize (eo_sel (sc_E S0))) (m_expr m)
       /\ beats (ec_F (eo_C (sc_E S0))) m (ss_best (co_st c)).
Proof.
  assert (E : after (fun c => (existsb (fun m => fltb xqops (m_loss m) (m_loss (ss_best (co_st c)))) (pareto_front xqops (ss_hall (co_st c))), (co_left c, co_tasks c, co_flight c)))
    missed_search demo_data out_of_order = Some (true, (0, [], []))) by (vm_compute; reflexivity).
  apply after_inv in E as (st0 & es & c & Hi & Hc & E). injection E as E1 E2 E3 E4. apply existsb_exists in E1 as (m & Hm & Hb).
  exists missed_search, demo_data, 9, st0, es, c. split; [exact missed_ok|]. split; [apply demo_data_ok|]. split; [reflexivity|]. split; [exact Hi|]. split; [exact Hc|].
  split; [repeat split; assumption|]. exists m. split; [exact Hm|]. split; [|exact Hb].
  apply (C46_front_sound xq xq missed_search demo_data None 9 8 st0 es c m missed_ok Hi Hc Hm).
Qed.

(** In that search the best improves on the initial ones: it was delivered by a task. *)
Example C48_case : OrderLaws (ec_F (eo_C (sc_E missed_search))) /\ search_ok missed_search demo_data 9
  /\ exists st0 es c, init_search missed_search demo_data None = Ok st0
  /\ csteps missed_search demo_data None (n_workers missed_search 8) (parallel_start missed_search st0) es c
  /\ m_loss (ss_best st0) = XF (70 # 4) /\ m_loss (ss_best (co_st c)) = XF (13 # 4) /\ nodes (m_expr (ss_best (co_st c))) = [Var 0; Var 0; Op 2 0; Var 0; Op 2 0].
Proof.
  split; [exact xq_order_laws|]. split; [exact missed_ok|].
  assert (E : after (fun c => (m_loss (ss_best (co_st c)), nodes (m_expr (ss_best (co_st c))))) missed_search demo_data out_of_order
    = Some (XF (13 # 4), [Var 0; Var 0; Op 2 0; Var 0; Op 2 0])) by (vm_compute; reflexivity).
  assert (E0 : ok_of (fun st => m_loss (ss_best st)) (init_search missed_search demo_data None) = Some (XF (70 # 4))) by (vm_compute; reflexivity).
  apply ok_of_inv in E0 as (st & H0 & E0). apply after_inv in E as (st0 & es & c & Hi & Hc & E). injection E as E1 E2.
  assert (st = st0) by (rewrite Hi in H0; injection H0; auto). subst st. exists st0, es, c. auto.
Qed.

Print Assumptions C48_parallel_best.
Print Assumptions C48_engine_best.
Print Assumptions C48_best_of_front_refuted.
