(** The evaluator's buffers keep their shape through every call that returns, whatever is evaluated. *)
From Verif Require Import Base BaseLemmas Node Compile Eval EvalProofs EvalTop Deriv Rng Registry Complexity Member Simplify Mutation Selection Conditioning
  Dataset Loss PropLoss Optim ConstOpt PropOptimTotal Frames Evolution.

(** The output buffer has [n] entries and the scratch matrix as many as its dimensions say. *)
Definition ready {T} (n : nat) (ev : evaluator T) : Prop := List.length (ev_yhat ev) = n /\ mat_ok (ev_scratch ev).

Section Shape.
Context {T : Type} (F : FloatOps T) (O : OpSet T).

Lemma eval_rows_length f views o : forall k row acc complete out c,
  eval_rows_loop F f views o row k acc complete = Ok (Some (out, c)) -> List.length out = List.length acc + k.
Proof.
  induction k as [|k IH]; intros row acc complete out c H; cbn [eval_rows_loop] in H; [injection H as <- _; lia|].
  apply bind_ok in H as (vals & _ & H). cbv zeta in H. destruct (maybe_mark_nonfinite F (f vals) o complete) as [go c']. destruct go; [|discriminate].
  apply IH in H. rewrite app_length in H. cbn in H. lia.
Qed.
Lemma finish_length o out c : List.length (fst (finish_eval F o out c)) = List.length out.
Proof. unfold finish_eval. destruct (negb (check_finite o)); auto. cbv zeta. destruct (_ && _); cbn; auto. apply fill_length. Qed.
Lemma eval_nary_length A f n args o out ok : eval_nary F A f n args o = Ok (out, ok) -> List.length out = n.
Proof.
  unfold eval_nary. intros H. apply bind_ok in H as (_ & _ & H). destruct (forallb _ args).
  - apply bind_ok in H as (vals & _ & H). cbv zeta in H. destruct (negb _); [injection H as <- _; apply fill_length|].
    destruct (_ && _); injection H as <- _; apply fill_length.
  - destruct (A =? 1).
    + apply bind_ok in H as (x & _ & H). apply bind_ok in H as (o1 & H1 & H). assert (L : List.length o1 = n).
      { unfold eval_unary_loop in H1. destruct x as [xs|c]; [|injection H1 as <-; apply fill_length].
        destruct (Nat.eqb_spec n (List.length xs)); [|discriminate]. injection H1 as <-. now rewrite map_length. }
      injection H as H. rewrite <- L, <- (finish_length o o1 true), H. reflexivity.
    + destruct (A =? 2).
      * apply bind_ok in H as (x & _ & H). apply bind_ok in H as (y & _ & H). apply bind_ok in H as (o1 & H1 & H). assert (L : List.length o1 = n).
        { unfold eval_binary_loop in H1. destruct x as [xs|c], y as [ys|c'].
          - apply bind_ok in H1 as (z & _ & H1). destruct (Nat.eqb_spec n (List.length z)); [|discriminate]. injection H1 as <-. now rewrite map_length.
          - destruct (Nat.eqb_spec n (List.length xs)); [|discriminate]. injection H1 as <-. now rewrite map_length.
          - destruct (Nat.eqb_spec n (List.length ys)); [|discriminate]. injection H1 as <-. now rewrite map_length.
          - injection H1 as <-. apply fill_length. }
        injection H as H. rewrite <- L, <- (finish_length o o1 true), H. reflexivity.
      * apply bind_ok in H as (r & H1 & H). destruct r as [[o1 c]|]; [|injection H as <- _; apply fill_length].
        apply eval_rows_length in H1. cbn in H1. injection H as H. rewrite <- H1, <- (finish_length o o1 c), H. reflexivity.
Qed.

Lemma exec_instr_length x n cs o s i s' ok : exec_instr F O x n cs o s i = Ok (s', ok) -> List.length s' = List.length s.
Proof.
  unfold exec_instr. intros H. apply bind_ok in H as ([before rest] & H1 & H). apply bind_ok in H as ([dst after] & H2 & H).
  apply bind_ok in H as (args & _ & H). apply bind_ok in H as ([out k] & H3 & H). injection H as <- _.
  unfold ops_eval in H3. destruct (oknown O _ _); [|discriminate]. apply eval_nary_length in H3.
  unfold split_at in H1, H2. destruct (Nat.leb_spec (i_dst i * n) (List.length s)); [|discriminate]. injection H1 as <- <-.
  destruct (Nat.leb_spec n (List.length (skipn (i_dst i * n) s))); [|discriminate]. injection H2 as <- <-.
  rewrite !app_length, H3. rewrite !firstn_length, !skipn_length in *. lia.
Qed.
Lemma exec_instrs_length x n cs o : forall is s c s' st, exec_instrs F O x n cs o is s c = Ok (s', st) -> List.length s' = List.length s.
Proof.
  induction is as [|i is IH]; intros s c s' st H; cbn [exec_instrs] in H; [injection H as <- _; auto|].
  apply bind_ok in H as ([s1 ok] & H1 & H). apply exec_instr_length in H1. destruct (_ && _); [injection H as <- _; auto|]. apply IH in H. congruence.
Qed.
Lemma slice_length {A} (l : list A) a n v : slice l a n = Ok v -> List.length v = n.
Proof.
  unfold slice. destruct (Nat.leb_spec (a + n) (List.length l)); [|discriminate]. intros [= <-]. rewrite firstn_length, skipn_length. lia.
Qed.
Lemma eval_shape out p e X sc o sc' out' b : eval_plan_array_into F O out p e X sc o = Ok (sc', out', b) -> mat_ok sc ->
  mat_ok sc' /\ List.length out' = List.length out /\ List.length out = m_ncols X.
Proof.
  unfold eval_plan_array_into. intros H Hm. apply bind_ok in H as (u & Ha & H). unfold assert_ in Ha. destruct (Nat.eqb_spec (List.length out) (m_ncols X)) as [El|]; [|discriminate].
  cbv zeta in H. set (s0 := if _ || _ then _ else _) in *.
  assert (Hs : mat_ok s0) by (unfold s0; destruct (_ || _); auto; unfold mat_ok, zeros; cbn; apply fill_length).
  clearbody s0. apply bind_ok in H as ([sd st] & He & H). apply exec_instrs_length in He.
  assert (Hm' : mat_ok (mkMat sd (m_nrows s0) (m_ncols s0))) by (unfold mat_ok in *; cbn; congruence).
  destruct st as [complete|]; [|injection H as <- <- _; auto].
  destruct (p_root p) as [f|c|s]; apply bind_ok in H as (v & Hv & H).
  all: try (injection H as <- <- _; apply slice_length in Hv; rewrite Hv; auto; fail).
  all: match type of H with (if ?q then _ else _) = _ => destruct q end; [destruct (early_exit o)|]; injection H as <- <- _; rewrite ?fill_length; auto.
Qed.
End Shape.

Section Keep.
Context {T W : Type} (C : eval_cfg T) (OC : opt_cfg T W).

Lemma evaluate_ready n m d bl ev m' ev' ok : evaluate C m d bl ev = Ok (m', ev', ok) -> ready n ev -> ready n ev'.
Proof.
  unfold evaluate. intros H [Hl Hm]. cbv zeta in H. apply bind_ok in H as ([[sc yhat] o] & H1 & H). apply bind_ok in H as (c & _ & H).
  apply eval_shape in H1 as (M1 & L1 & _); auto. assert (R : ready n (mkEvalr yhat sc)) by (split; cbn; congruence).
  destruct (negb o); [injection H as _ <- _; auto|]. apply bind_ok in H as (l & _ & H). destruct (negb _); injection H as _ <- _; auto.
Qed.
Lemma loss_only_ready n p e d ev ev' v : loss_only C OC p e d ev = Ok (ev', v) -> ready n ev -> ready n ev'.
Proof.
  unfold loss_only. intros H [Hl Hm]. apply bind_ok in H as ([[sc yhat] o] & H1 & H). cbv zeta in H.
  apply eval_shape in H1 as (M1 & L1 & _); auto. assert (R : ready n (mkEvalr yhat sc)) by (split; cbn; congruence).
  destruct (negb o); [injection H as <- _; auto|]. apply bind_ok in H as (l & _ & H). destruct (negb _); injection H as <- _; auto.
Qed.
Lemma optimize_from_start_ready n p e d st x st' r : optimize_from_start C OC p e d st x = Ok (st', r) -> ready n (cs_ev st) -> ready n (cs_ev st').
Proof.
  intros H Hn. unfold optimize_from_start in H. cbv zeta in H.
  set (P := fun s : cstate T => ready n (cs_ev s)).
  assert (Hf : forall s y s' v, P s -> ob_f (const_objective C OC p e d) s y = Ok (s', v) -> P s').
  { intros s y s' v HP E. cbn in E. apply bind_ok in E as (_ & _ & E).
    destruct (write_consts OC (cs_consts s) y) as [cs ok]. destruct ok; cbn [negb] in E.
    - apply bind_ok in E as ([ev w] & El & E). injection E as <- _. unfold P in *. cbn. eapply loss_only_ready; eauto.
    - injection E as <- _. exact HP. }
  assert (Hg : forall s y s' v, P s -> ob_fg (const_objective C OC p e d) s y = Ok (s', v) -> P s').
  { intros s y s' v HP E. cbn in E. apply bind_ok in E as (_ & _ & E).
    destruct (write_consts OC (cs_consts s) y) as [cs ok]. destruct ok; cbn [negb] in E.
    - apply bind_ok in E as ([[gc dl] w] & _ & E). injection E as <- _. exact HP.
    - injection E as <- _. exact HP. }
  apply bind_ok in H as ([[st1 k] r1] & H & E). injection E as <- _. destruct (List.length (consts e) =? 1).
  - apply bind_ok in H as (x0 & _ & H). apply (newton_loop_keeps (oc_F OC) (oc_OO OC) _ P Hf Hg) in H; auto.
  - unfold bfgs_minimize in H. cbv zeta in H. apply bind_ok in H as ([s v] & Hfg & H). apply Hg in Hfg; auto.
    destruct v as [[fx g]|]; [|injection H as <- _ _; auto]. destruct (ffinite (oc_F OC) fx); cbn [negb] in H; [|injection H as <- _ _; auto].
    apply (bfgs_loop_keeps (oc_F OC) (oc_OO OC) _ P Hf Hg) in H; auto.
Qed.
Lemma restarts_ready n p e d x0 : forall k r st b r' st' b', restarts C OC k p e d x0 r st b = Ok (r', st', b') -> ready n (cs_ev st) -> ready n (cs_ev st').
Proof.
  induction k as [|k IH]; intros r st b r' st' b' H Hn; cbn in H; [injection H as _ <- _; auto|].
  destruct (perturb OC r x0) as [xt r1]. apply bind_ok in H as ([st1 o] & Ho & H). eapply IH; [exact H|]. eapply optimize_from_start_ready; eauto.
Qed.
Lemma optimize_ready n r m d bl ev gc nb r' m' ev' gc' nb' improved evals :
  optimize_constants C OC r m d bl ev gc nb = Ok (r', m', ev', gc', nb', improved, evals) -> ready n ev -> ready n ev'.
Proof.
  unfold optimize_constants. intros H Hn. destruct (negb _); [injection H as _ _ <- _ _ _ _; auto|].
  destruct (_ =? 0); [injection H as _ _ <- _ _ _ _; auto|].
  apply bind_ok in H as ([ev1 b] & H0 & H). eapply loss_only_ready in H0; [|exact Hn]. destruct b as [base|]; [|injection H as _ _ <- _ _ _ _; auto].
  cbv zeta in H. apply bind_ok in H as ([st1 o] & H1 & H). apply bind_ok in H as ([[r1 st2] [[bx bf] ne]] & H2 & H).
  eapply optimize_from_start_ready in H1; [|exact H0]. eapply restarts_ready in H2; [|exact H1].
  destruct (fltb (oc_F OC) bf base); [|injection H as _ _ <- _ _ _ _; auto].
  apply bind_ok in H as (z & _ & H). apply bind_ok in H as ([[m1 ev2] ok] & He & H). eapply evaluate_ready in He; [|exact H2].
  destruct (negb ok); injection H as _ _ <- _ _ _ _; auto.
Qed.
End Keep.

Section Evo.
Context {T : Type} (E : evo_cfg T).
Local Notation eready n s := (ready n (es_ev s)).

Lemma in_place_ready n ev (r : mutated T) o g ev' : in_place ev r = Ok (o, g, ev') -> ready n ev -> ready n ev'.
Proof. unfold in_place. intros H. apply bind_ok in H as ([[b e] g1] & _ & H). injection H as _ _ <-. auto. Qed.
Lemma apply_ready n c g ev m e d bl temp cur o g' ev' : apply E c g ev m e d bl temp cur = Ok (o, g', ev') -> ready n ev -> ready n ev'.
Proof.
  intros H. destruct c; cbn [apply] in H; try (apply in_place_ready in H; exact H); try (eapply in_place_ready; exact H);
    try (injection H as _ _ <-; auto; fail); cbv zeta in H.
  - apply bind_ok in H as ([e1 ch] & _ & H). injection H as _ _ <-. auto.
  - apply bind_ok in H as ([tg g1] & _ & H). apply bind_ok in H as ([e1 g2] & _ & H). injection H as _ _ <-. auto.
  - apply bind_ok in H as (tmp & _ & H). apply bind_ok in H as ([[[[[[g1 m1] ev1] gc1] nb1] imp] k1] & Ho & H). injection H as _ _ <-.
    eapply optimize_ready; eauto.
Qed.
Lemma attempts_ready n c m d bl temp cur : forall k g ev evals o evals' g' ev',
  attempts E k c g ev m d bl temp cur evals = Ok (o, evals', g', ev') -> ready n ev -> ready n ev'.
Proof.
  induction k as [|k IH]; intros g ev evals o evals' g' ev' H Hn; cbn [attempts] in H; [injection H as _ _ _ <-; auto|].
  apply bind_ok in H as ([[o1 g1] ev1] & Ha & H). eapply apply_ready in Ha; [|exact Hn]. destruct o1 as [[[e mu] kk] imm]. cbv zeta in H.
  destruct (negb mu); [eapply IH; eauto|]. apply bind_ok in H as ([tr ch] & _ & H). apply bind_ok in H as (ok & _ & H).
  destruct ok; [injection H as _ _ _ <-; auto|eapply IH; eauto].
Qed.
Lemma next_generation_ready n s m d bl temp cur st baby acc k s' : next_generation E s m d bl temp cur st = Ok (baby, acc, k, s') -> eready n s -> eready n s'.
Proof.
  intros H Hn. unfold next_generation in H. cbv zeta in H. apply bind_ok in H as ([c g] & _ & H). apply bind_ok in H as ([[[found evals] g1] ev1] & Ha & H).
  eapply attempts_ready in Ha; [|exact Hn]. destruct found as [[tree [|]]|].
  - apply bind_ok in H as (b1 & _ & H). apply bind_ok in H as (b2 & _ & H). apply bind_ok in H as (cx & _ & H). injection H as _ _ _ <-. exact Ha.
  - apply bind_ok in H as (b1 & _ & H). apply bind_ok in H as ([[b2 ev2] ok] & H2 & H). eapply evaluate_ready in H2; [|exact Ha].
    destruct (_ || _).
    + apply bind_ok in H as (rj & _ & H). injection H as _ _ _ <-. exact H2.
    + apply bind_ok in H as (prob & _ & H). destruct (rng_real g1) as [u g2]. destruct (fltb _ prob u).
      * apply bind_ok in H as (rj & _ & H). injection H as _ _ _ <-. exact H2.
      * injection H as _ _ _ <-. exact H2.
  - apply bind_ok in H as (rj & _ & H). injection H as _ _ _ <-. exact Ha.
Qed.
Lemma crossover_ready n d bl cur m1 m2 : forall k s b1 b2 acc kk s', crossover_loop E k s m1 m2 d bl cur = Ok (b1, b2, acc, kk, s') -> eready n s -> eready n s'.
Proof.
  induction k as [|k IH]; intros s b1 b2 acc kk s' H Hn; cbn [crossover_loop] in H; [injection H as _ _ _ _ <-; auto|].
  apply bind_ok in H as ([[c1 c2] g] & _ & H). apply bind_ok in H as (ok1 & _ & H). apply bind_ok in H as (ok & _ & H).
  destruct ok; [|eapply IH; [exact H|exact Hn]]. cbv zeta in H. apply bind_ok in H as (y1 & _ & H). apply bind_ok in H as (y2 & _ & H).
  apply bind_ok in H as ([[z1 ev1] o1] & H3 & H). apply bind_ok in H as ([[z2 ev2] o2] & H4 & H). injection H as _ _ _ _ <-.
  eapply evaluate_ready in H3; [|exact Hn]. eapply evaluate_ready in H4; [|exact H3]. exact H4.
Qed.
Lemma evol_step_ready n pop s d bl temp cur st pop' s' k : evol_step E pop s d bl temp cur st = Ok (pop', s', k) -> eready n s -> eready n s'.
Proof.
  intros H Hn. unfold evol_step in H. destruct (rng_real (es_rng s)) as [u g]. destruct (fgtb _ u _).
  - apply bind_ok in H as ([a g1] & _ & H). apply bind_ok in H as ([[[b acc] k1] s1] & Hb & H). eapply next_generation_ready in Hb; [|exact Hn].
    destruct (_ && _); [injection H as _ <- _; auto|]. apply bind_ok in H as (p1 & _ & H). injection H as _ <- _. auto.
  - apply bind_ok in H as ([a1 g1] & _ & H). apply bind_ok in H as ([a2 g2] & _ & H). apply bind_ok in H as ([[[[b1 b2] acc] k1] s1] & Hb & H).
    eapply crossover_ready in Hb; [|exact Hn]. destruct (_ && _); [injection H as _ <- _; auto|]. apply bind_ok in H as (p1 & _ & H). injection H as _ <- _. auto.
Qed.
Lemma evol_steps_ready n d bl temp cur st : forall k pop s ev pop' s' k', evol_steps E k pop s d bl temp cur st ev = Ok (pop', s', k') -> eready n s -> eready n s'.
Proof.
  induction k as [|k IH]; intros pop s ev pop' s' k' H Hn; cbn [evol_steps] in H; [injection H as _ <- _; auto|].
  apply bind_ok in H as ([[p1 s1] k1] & H1 & H). eapply evol_step_ready in H1; eauto.
Qed.
Lemma sr_cycles_ready n d bl cur st nn : forall idx pop s best ev pop' s' best' k, sr_cycles E idx nn pop s best d bl cur st ev = Ok (pop', s', best', k) -> eready n s -> eready n s'.
Proof.
  induction idx as [|i idx IH]; intros pop s best ev pop' s' best' k H Hn; cbn [sr_cycles] in H; [injection H as _ <- _ _; auto|].
  apply bind_ok in H as ([[p1 s1] k1] & H1 & H). apply bind_ok in H as (b1 & _ & H). eapply evol_steps_ready in H1; eauto.
Qed.
Lemma s_r_cycle_ready n pop s d bl cur st pop' s' best k : s_r_cycle E pop s d bl cur st = Ok (pop', s', best, k) -> eready n s -> eready n s'.
Proof. unfold s_r_cycle. intros H. apply bind_ok in H as (b & _ & H). eapply sr_cycles_ready; eauto. Qed.

Lemma ensure_ready (F : FloatOps T) n ev : mat_ok (ev_scratch ev) -> ready n (ensure_n_rows F ev n).
Proof.
  intros Hm. unfold ensure_n_rows. destruct (Nat.eqb_spec (List.length (ev_yhat ev)) n); [split; auto|]. split; cbn; auto.
  rewrite app_length, firstn_length, fill_length. lia.
Qed.
Lemma optimize_members_ready n d bl : forall ms s gc ev ms' s' gc' k, optimize_members E ms s gc d bl ev = Ok (ms', s', gc', k) -> eready n s -> eready n s'.
Proof.
  induction ms as [|m ms IH]; intros s gc ev ms' s' gc' k H Hn; cbn [optimize_members] in H; [injection H as _ <- _ _; auto|].
  destruct (rng_real (es_rng s)) as [u g]. destruct (fltb _ u _).
  - apply bind_ok in H as ([[[[[[g1 m1] ev1] gc1] nb1] imp] k1] & Eo & H). apply bind_ok in H as ([[[ms1 s1] gc2] k2] & E2 & H). injection H as _ <- _ _.
    eapply IH; [exact E2|]. cbn. eapply optimize_ready; eauto.
  - apply bind_ok in H as ([[[ms1 s1] gc2] k2] & E2 & H). injection H as _ <- _ _. eapply IH; [exact E2|]. exact Hn.
Qed.
Lemma evaluate_members_ready n d bl : forall ms ev ms' ev', evaluate_members E ms ev d bl = Ok (ms', ev') -> ready n ev -> ready n ev'.
Proof.
  induction ms as [|m ms IH]; intros ev ms' ev' H Hn; cbn in H; [injection H as _ <-; auto|].
  apply bind_ok in H as ([[m1 ev1] ok] & E1 & H). apply bind_ok in H as ([ms1 ev2] & E2 & H). injection H as _ <-. eapply evaluate_ready in E1; eauto.
Qed.
Lemma second_half_ready n pop s gc full d bl pop' s' gc' k : optimize_and_simplify_population E pop s gc full d bl = Ok (pop', s', gc', k) ->
  eready n s -> eready (ds_n_rows full) s'.
Proof.
  intros H Hn. unfold optimize_and_simplify_population in H. apply bind_ok in H as (p1 & _ & H). apply bind_ok in H as ([[[p2 s2] gc2] k2] & E2 & H).
  apply bind_ok in H as ([p3 ev3] & E3 & H). injection H as _ <- _ _. cbn [es_ev]. eapply evaluate_members_ready; [exact E3|]. apply ensure_ready.
  destruct (oc_enabled (eo_opt E) && _).
  - eapply (optimize_members_ready (ds_n_rows d)) in E2; [apply E2|]. cbn. apply ensure_ready, Hn.
  - injection E2 as _ <- _ _. apply Hn.
Qed.
End Evo.
