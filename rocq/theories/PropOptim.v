(** Property C33: the line search accepts only sufficient decrease; the minimisers never return something worse than
    their start and keep to the call budget. *)
From Coq Require Import QArith Lqa.
From Verif Require Import Base BaseLemmas Node Compile Eval EvalProofs Num Instances Dataset Optim.
Local Open Scope nat_scope.

(** What the rounding of the scalar type must respect: signs of products, and that adding something nonpositive does not
    increase. True of IEEE arithmetic and of exact arithmetic. *)
Record SignLaws {W} (F : FloatOps W) (half : W) : Prop := {
  sl_fin_num : forall a, ffinite F a = true -> num F a;
  sl_zero : ffinite F (fzero F) = true;
  sl_inf : forall a, ffinite F a = true -> fltb F a (finf F) = true;
  sl_add : forall a b, ffinite F a = true -> fleb F b (fzero F) = true -> fleb F (fadd F a b) a = true;
  sl_mul_pos : forall a b, fltb F (fzero F) a = true -> ffinite F a = true -> fltb F (fzero F) b = true -> ffinite F b = true ->
     fleb F (fzero F) (fmul F a b) = true;
  sl_mul_neg : forall a b, fleb F (fzero F) a = true -> fltb F b (fzero F) = true -> ffinite F b = true ->
     fleb F (fmul F a b) (fzero F) = true;
  sl_half : forall a, fltb F (fzero F) a = true -> ffinite F a = true -> ffinite F (fmul F a half) = true }.

(** [xn] is the point [x + alpha s], componentwise in the scalar arithmetic. *)
Definition is_step {W} (F : FloatOps W) (x s : list W) (alpha : W) (xn : list W) : Prop :=
  List.length xn = List.length x /\ List.length s = List.length x
  /\ forall i xi si, nth_error x i = Some xi -> nth_error s i = Some si -> nth_error xn i = Some (fadd F xi (fmul F alpha si)).

(** A repeatable objective: on states satisfying [Inv], which its calls preserve, its value is a function of the point. *)
Record repeatable {St W} (Inv : St -> Prop) (obj : objective St W) (f : list W -> option W) : Prop := {
  rp_f : forall st x st' v, Inv st -> ob_f obj st x = Ok (st', v) -> v = f x /\ Inv st';
  rp_fg : forall st x st' v, Inv st -> ob_fg obj st x = Ok (st', v) -> Inv st' /\ forall a g, v = Some (a, g) -> f x = Some a }.

Lemma axpy_step {W} (F : FloatOps W) x a s xn : axpy F x a s = Ok xn -> is_step F x s a xn.
Proof.
  unfold axpy, zip_eq. destruct (Nat.eqb_spec (List.length x) (List.length s)) as [E|E]; [|discriminate]. cbn [bind]. intros [= <-].
  unfold is_step. rewrite map_length, combine_length, <- E, Nat.min_id. repeat split; auto.
  intros i xi si Hx Hs. rewrite nth_error_map.
  assert (Hc : forall (l1 l2 : list W) i x y, nth_error l1 i = Some x -> nth_error l2 i = Some y -> nth_error (combine l1 l2) i = Some (x, y)).
  { induction l1 as [|p l1 IH]; intros [|q l2] [|j] u v; cbn; try discriminate; [intros [= <-] [= <-]; auto|apply IH]. }
  rewrite (Hc _ _ _ _ _ Hx Hs). reflexivity.
Qed.

Section LineSearch.
Context {W S : Type} (F : FloatOps W) (OO : OptOps W) (phi_at : S -> list W -> res (S * option W)).

Definition not_finite_some (o : option W) : Prop := match o with Some v => ffinite F v = false | None => True end.
Context (P : S -> Prop) (HP : forall st x st' v, P st -> phi_at st x = Ok (st', v) -> P st').

Lemma halve_spec x s : forall k st a last x0 st' a' o xn, P st -> not_finite_some last ->
  halve F OO phi_at x s k st a last x0 = Ok (st', a', o, xn) ->
  P st' /\ forall v, o = Some v -> ffinite F v = true -> is_step F x s a' xn /\ exists st1, P st1 /\ phi_at st1 xn = Ok (st', Some v).
Proof.
  induction k as [|k IH]; intros st a last x0 st' a' o xn Hst Hl H; cbn [halve] in H.
  - injection H as <- <- <- <-. split; auto. intros v -> Hv. cbn in Hl. congruence.
  - apply bind_ok in H as (xn1 & Ha & H). apply bind_ok in H as ([st1 ok] & Hp & H).
    pose proof (HP _ _ _ _ Hst Hp) as Hst1.
    destruct ok as [w|].
    + destruct (ffinite F w) eqn:Ew.
      * injection H as <- <- <- <-. split; auto. intros v [= <-] _. split; [apply axpy_step; auto|eauto].
      * destruct (fleb F (fmul F a (oo_half OO)) (fzero F)); [injection H as <- <- <- <-; split; [auto|discriminate]|].
        exact (IH _ _ (Some w) _ _ _ _ _ Hst1 Ew H).
    + destruct (fleb F (fmul F a (oo_half OO)) (fzero F)); [injection H as <- <- <- <-; split; [auto|discriminate]|].
      exact (IH _ _ None _ _ _ _ _ Hst1 I H).
Qed.

Lemma armijo_spec ls x s phi0 dphi0 : forall k first st alpha phi aprev pprev xn st' r, P st ->
  is_step F x s alpha xn -> (exists st1, P st1 /\ phi_at st1 xn = Ok (st, Some phi)) -> ffinite F phi = true ->
  armijo_loop F OO phi_at ls x s phi0 dphi0 k first st alpha phi aprev pprev xn = Ok (st', r) ->
  P st' /\ forall alpha' phi' xn', r = Some (alpha', phi', xn') ->
  is_step F x s alpha' xn' /\ (exists st1, P st1 /\ phi_at st1 xn' = Ok (st', Some phi')) /\ ffinite F phi' = true
  /\ fleb F phi' (fadd F phi0 (fmul F (fmul F (bt_c1 ls) alpha') dphi0)) = true.
Proof.
  induction k as [|k IH]; intros first st alpha phi aprev pprev xn st' r Hst Hs Hp Hf H; cbn [armijo_loop] in H;
    [injection H as <- <-; split; [auto|discriminate]|].
  destruct (fleb F phi _) eqn:Ea.
  - injection H as <- <-. split; auto. intros alpha' phi' xn' [= <- <- <-]. auto.
  - cbv zeta in H. match type of H with (if ?c then _ else _) = _ => destruct c eqn:Ec end; [injection H as <- <-; split; [auto|discriminate]|].
    apply bind_ok in H as (xn1 & Hx & H). apply bind_ok in H as ([st1 v] & Hv & H). pose proof (HP _ _ _ _ Hst Hv) as Hst1.
    destruct v as [w|]; [|injection H as <- <-; split; [auto|discriminate]].
    destruct (ffinite F w) eqn:Ew; cbn [negb] in H; [|injection H as <- <-; split; [auto|discriminate]].
    apply IH in H; auto; [apply axpy_step; auto|eauto].
Qed.

Lemma linesearch_spec ls x s alpha0 phi0 dphi0 st st' r : P st ->
  linesearch F OO phi_at ls x s alpha0 phi0 dphi0 st = Ok (st', r) ->
  P st' /\ forall alpha phi xn, r = Some (alpha, phi, xn) ->
  is_step F x s alpha xn /\ (exists st1, P st1 /\ phi_at st1 xn = Ok (st', Some phi)) /\ ffinite F phi = true
  /\ fleb F phi (fadd F phi0 (fmul F (fmul F (bt_c1 ls) alpha) dphi0)) = true.
Proof.
  intros Hst H. unfold linesearch in H.
  destruct (negb (ffinite F alpha0) || fleb F alpha0 (fzero F)); [injection H as <- <-; split; [auto|discriminate]|]. cbv zeta in H.
  apply bind_ok in H as ([[[st1 a] ok] x1] & Hh & H). apply halve_spec in Hh as [Hst1 Hh]; auto; [|exact I].
  destruct ok as [p|]; [|injection H as <- <-; split; [auto|discriminate]].
  destruct (ffinite F p) eqn:Ep; cbn [negb] in H; [|injection H as <- <-; split; [auto|discriminate]].
  destruct (Hh p eq_refl Ep) as [H1 H2]. eapply armijo_spec; eauto.
Qed.
End LineSearch.

(** An accepted step is at [x + alpha s], where the objective, evaluated there last, gave the finite value returned, and
    that value satisfies the Armijo condition, in the arithmetic of the machine. *)
Theorem C33_armijo : forall (W S : Type) (F : FloatOps W) (OO : OptOps W) (phi_at : S -> list W -> res (S * option W))
    ls x s alpha0 phi0 dphi0 st st' alpha phi xn,
  linesearch F OO phi_at ls x s alpha0 phi0 dphi0 st = Ok (st', Some (alpha, phi, xn)) ->
  is_step F x s alpha xn /\ (exists st1, phi_at st1 xn = Ok (st', Some phi)) /\ ffinite F phi = true
  /\ fleb F phi (fadd F phi0 (fmul F (fmul F (bt_c1 ls) alpha) dphi0)) = true.
Proof.
  intros W S F OO phi_at ls x s alpha0 phi0 dphi0 st st' alpha phi xn H.
  destruct (linesearch_spec F OO phi_at (fun _ => True) (fun _ _ _ _ _ _ => I) ls x s alpha0 phi0 dphi0 st st' _ I H) as [_ Hr].
  destruct (Hr _ _ _ eq_refl) as (H1 & (st1 & _ & H2) & H3 & H4). eauto.
Qed.

Section Positive.
Context {W S : Type} (F : FloatOps W) (OO : OptOps W) (phi_at : S -> list W -> res (S * option W)).
Context (L : OrderLaws F) (SL : SignLaws F (oo_half OO)).

Lemma not_le_pos a : num F a -> fleb F a (fzero F) = false -> fltb F (fzero F) a = true.
Proof.
  intros Ha H. unfold fleb in H. apply orb_false_iff in H as [H1 H2].
  destruct (ol_total F L a (fzero F) Ha (sl_fin_num F _ SL _ (sl_zero F _ SL))) as [?|[?|?]]; congruence.
Qed.
Lemma le_trans a b c : fleb F a b = true -> fleb F b c = true -> fleb F a c = true.
Proof.
  unfold fleb. rewrite !orb_true_iff. intros [H1|H1] [H2|H2].
  - left. eapply (ol_trans F L); eauto.
  - left. rewrite <- (ol_eq_r F L _ _ a H2). auto.
  - left. rewrite (ol_eq_l F L _ _ c H1). auto.
  - right. eapply (ol_eq_trans F L); eauto.
Qed.

Lemma halve_pos x s : forall k st a last x0 st' a' v xn, fltb F (fzero F) a = true -> ffinite F a = true ->
  not_finite_some F last -> halve F OO phi_at x s k st a last x0 = Ok (st', a', Some v, xn) -> ffinite F v = true ->
  fltb F (fzero F) a' = true /\ ffinite F a' = true.
Proof.
  induction k as [|k IH]; intros st a last x0 st' a' v xn Hp Hf Hl H Hv; cbn [halve] in H.
  - injection H as <- <- -> <-. cbn in Hl. congruence.
  - apply bind_ok in H as (xn1 & Ha & H). apply bind_ok in H as ([st1 ok] & Hp1 & H).
    assert (Hnext : fleb F (fmul F a (oo_half OO)) (fzero F) = false -> fltb F (fzero F) (fmul F a (oo_half OO)) = true /\ ffinite F (fmul F a (oo_half OO)) = true).
    { intros Hn. pose proof (sl_half F _ SL a Hp Hf) as Hh. split; auto. apply not_le_pos; auto. apply (sl_fin_num F _ SL); auto. }
    destruct ok as [w|].
    + destruct (ffinite F w) eqn:Ew.
      * injection H as <- <- <- <-. auto.
      * destruct (fleb F (fmul F a (oo_half OO)) (fzero F)) eqn:El; [discriminate|]. destruct (Hnext eq_refl) as [N1 N2]. exact (IH _ _ (Some w) _ _ _ _ _ N1 N2 Ew H Hv).
    + destruct (fleb F (fmul F a (oo_half OO)) (fzero F)) eqn:El; [discriminate|]. destruct (Hnext eq_refl) as [N1 N2]. exact (IH _ _ None _ _ _ _ _ N1 N2 I H Hv).
Qed.

Lemma armijo_pos ls x s phi0 dphi0 : forall k first st alpha phi aprev pprev xn st' alpha' phi' xn',
  fltb F (fzero F) alpha = true -> ffinite F alpha = true ->
  armijo_loop F OO phi_at ls x s phi0 dphi0 k first st alpha phi aprev pprev xn = Ok (st', Some (alpha', phi', xn')) ->
  fltb F (fzero F) alpha' = true /\ ffinite F alpha' = true.
Proof.
  induction k as [|k IH]; intros first st alpha phi aprev pprev xn st' alpha' phi' xn' Hp Hf H; cbn [armijo_loop] in H; [discriminate|].
  destruct (fleb F phi _) eqn:Ea.
  - injection H as <- <- <- <-. auto.
  - cbv zeta in H. match type of H with (if negb (ffinite F ?a) || _ then _ else _) = _ => set (tmp := a) in H end.
    destruct (ffinite F tmp) eqn:Et; cbn [negb orb] in H; [|discriminate].
    destruct (fleb F tmp (fzero F)) eqn:El; [discriminate|].
    apply bind_ok in H as (xn1 & Hx & H). apply bind_ok in H as ([st1 v] & Hv & H).
    destruct v as [w|]; [|discriminate]. destruct (ffinite F w) eqn:Ew; cbn [negb] in H; [|discriminate].
    apply IH in H; auto. apply not_le_pos; auto. apply (sl_fin_num F _ SL); auto.
Qed.

Lemma linesearch_pos ls x s alpha0 phi0 dphi0 st st' alpha phi xn : ffinite F (bt_maxstep ls) = false ->
  linesearch F OO phi_at ls x s alpha0 phi0 dphi0 st = Ok (st', Some (alpha, phi, xn)) ->
  fltb F (fzero F) alpha = true /\ ffinite F alpha = true.
Proof.
  intros Hm H. unfold linesearch in H. destruct (ffinite F alpha0) eqn:E0; cbn [negb orb] in H; [|discriminate].
  destruct (fleb F alpha0 (fzero F)) eqn:El; [discriminate|]. rewrite Hm in H. cbv zeta in H.
  apply bind_ok in H as ([[[st1 a] ok] x1] & Hh & H). destruct ok as [p|]; [|discriminate].
  destruct (ffinite F p) eqn:Ep; cbn [negb] in H; [|discriminate].
  assert (Hp0 : fltb F (fzero F) alpha0 = true) by (apply not_le_pos; auto; apply (sl_fin_num F _ SL); auto).
  destruct (halve_pos x s _ _ _ None _ _ _ _ _ Hp0 E0 I Hh Ep) as [H1 H2]. eapply armijo_pos; eauto.
Qed.
End Positive.

(** In a descent direction the accepted step is positive and the value does not exceed the starting value. *)
Theorem C33_step_no_worse : forall (W S : Type) (F : FloatOps W) (OO : OptOps W) (phi_at : S -> list W -> res (S * option W))
    ls x s alpha0 phi0 dphi0 st st' alpha phi xn,
  OrderLaws F -> SignLaws F (oo_half OO) -> ffinite F (bt_maxstep ls) = false ->
  fltb F (fzero F) (bt_c1 ls) = true -> ffinite F (bt_c1 ls) = true ->
  ffinite F phi0 = true -> fltb F dphi0 (fzero F) = true -> ffinite F dphi0 = true ->
  linesearch F OO phi_at ls x s alpha0 phi0 dphi0 st = Ok (st', Some (alpha, phi, xn)) ->
  fltb F (fzero F) alpha = true /\ ffinite F alpha = true /\ fleb F phi phi0 = true.
Proof.
  intros W S F OO phi_at ls x s alpha0 phi0 dphi0 st st' alpha phi xn L SL Hm Hc Hcf Hp0 Hd Hdf H.
  destruct (linesearch_pos F OO phi_at L SL ls x s alpha0 phi0 dphi0 st st' alpha phi xn Hm H) as [H1 H2].
  split; auto. split; auto. apply C33_armijo in H as (_ & _ & _ & Ha).
  eapply (le_trans F L); [exact Ha|]. apply (sl_add F _ SL); auto. apply (sl_mul_neg F _ SL); auto. apply (sl_mul_pos F _ SL); auto.
Qed.

(** In exact arithmetic the decrease is strict, and the step is at most the initial one. *)
Theorem C33_exact_decrease : forall (W S : Type) (F : FloatOps W) (val : W -> Q) (OO : OptOps W) (phi_at : S -> list W -> res (S * option W))
    ls x s alpha0 phi0 dphi0 st st' alpha phi xn,
  ExactLaws F val -> ffinite F alpha = true -> fltb F (fzero F) alpha = true ->
  fltb F (fzero F) (bt_c1 ls) = true -> ffinite F (bt_c1 ls) = true ->
  ffinite F phi0 = true -> fltb F dphi0 (fzero F) = true -> ffinite F dphi0 = true ->
  linesearch F OO phi_at ls x s alpha0 phi0 dphi0 st = Ok (st', Some (alpha, phi, xn)) ->
  (val phi <= val phi0 + val (bt_c1 ls) * val alpha * val dphi0)%Q /\ (val phi < val phi0)%Q.
Proof.
  intros W S F val OO phi_at ls x s alpha0 phi0 dphi0 st st' alpha phi xn X Hf1 Hpos Hc Hcf Hp0 Hd Hdf H.
  apply C33_armijo in H as (_ & _ & Hpf & Ha).
  destruct (ex_zero F val X) as [Z1 Z2].
  destruct (ex_mul F val X _ _ Hcf Hf1) as [M1 E1]. destruct (ex_mul F val X _ _ M1 Hdf) as [M2 E2]. destruct (ex_add F val X _ _ Hp0 M2) as [M3 E3].
  apply (ex_lt F val X) in Hpos; auto. apply (ex_lt F val X) in Hc; auto. apply (ex_lt F val X) in Hd; auto. rewrite Z2 in *.
  assert (Hle : (val phi <= val phi0 + val (bt_c1 ls) * val alpha * val dphi0)%Q).
  { unfold fleb in Ha. apply orb_true_iff in Ha as [Ha|Ha]; [apply (ex_lt F val X) in Ha|apply (ex_eq F val X) in Ha]; auto; rewrite E3, E2, E1 in Ha; lra. }
  split; auto.
  assert (Hneg : (val (bt_c1 ls) * val alpha * val dphi0 < 0)%Q).
  { setoid_replace (val (bt_c1 ls) * val alpha * val dphi0)%Q with (- (val (bt_c1 ls) * val alpha * (- val dphi0)))%Q by ring.
    assert (0 < val (bt_c1 ls) * val alpha * - val dphi0)%Q; [|lra]. repeat apply Qmult_lt_0_compat; lra. }
  lra.
Qed.

(** ** The minimisers *)
Section Minimisers.
Context {St W : Type} (F : FloatOps W) (OO : OptOps W) (obj : objective St W) (Inv : St -> Prop) (f : list W -> option W)
  (R : repeatable Inv obj f) (opts : optim_options W) (ls : backtracking W).

Let limit := oi_f_calls_limit opts.

Lemma budgeted_inv st x st' v : Inv (fst st) -> budgeted F obj limit st x = Ok (st', v) ->
  Inv (fst st') /\ forall a, v = Some a -> f x = Some a /\ ffinite F a = true.
Proof.
  destruct st as [s c]. cbn [fst]. intros HI H. unfold budgeted in H. destruct (negb (limit =? 0) && (limit <=? c)).
  - injection H as <- <-. split; auto. discriminate.
  - apply bind_ok in H as ([s1 w] & Hw & H). injection H as <- <-. destruct (rp_f Inv obj f R _ _ _ _ HI Hw) as [-> HI1].
    split; auto. intros a. destruct (f x) as [b|] eqn:Ef; [|discriminate]. destruct (ffinite F b) eqn:Eb; [|discriminate].
    intros [= <-]. auto.
Qed.

Lemma ls_spec x s alpha0 phi0 dphi0 st st' r : Inv (fst st) ->
  linesearch F OO (budgeted F obj limit) ls x s alpha0 phi0 dphi0 st = Ok (st', r) ->
  Inv (fst st') /\ forall alpha phi xn, r = Some (alpha, phi, xn) ->
    List.length xn = List.length x /\ is_step F x s alpha xn /\ f xn = Some phi /\ ffinite F phi = true.
Proof.
  intros HI H.
  destruct (linesearch_spec F OO (budgeted F obj limit) (fun st => Inv (fst st))) with (2 := HI) (3 := H) as [H1 H2].
  { intros s0 y s1 v H0 Hb. apply (budgeted_inv _ _ _ _ H0 Hb). }
  split; auto. intros alpha phi xn E. destruct (H2 _ _ _ E) as (Hs & (st1 & HI1 & Hb) & Hf & _).
  split; [apply Hs|]. split; auto. split; auto. destruct (budgeted_inv _ _ _ _ HI1 Hb) as [_ Hv]. apply (Hv phi eq_refl).
Qed.

(** [bfgs_loop]: the result is the objective at the returned point, and no worse than [fx]. *)
Context (L : OrderLaws F) (SL : SignLaws F (oo_half OO)) (Hm : ffinite F (bt_maxstep ls) = false)
  (Hc1 : fltb F (fzero F) (bt_c1 ls) = true) (Hc1f : ffinite F (bt_c1 ls) = true).

Lemma not_ge_lt a : ffinite F a = true -> fgeb F a (fzero F) = false -> fltb F a (fzero F) = true.
Proof.
  intros Hf H. unfold fgeb in H. apply orb_false_iff in H as [H1 H2].
  destruct (ol_total F L a (fzero F) (sl_fin_num F _ SL _ Hf) (sl_fin_num F _ SL _ (sl_zero F _ SL))) as [?|[?|?]]; congruence.
Qed.

Lemma le_refl a : ffinite F a = true -> fleb F a a = true.
Proof. intros H. unfold fleb. rewrite (sl_fin_num F _ SL _ H). apply orb_true_r. Qed.

Lemma bfgs_loop_spec n : forall k st x g h fx st' r, Inv (fst st) -> f x = Some fx -> ffinite F fx = true ->
  bfgs_loop F OO obj opts ls n k st x g h fx = Ok (st', Some r) ->
  Inv (fst st') /\ List.length (or_minimizer r) = List.length x /\ f (or_minimizer r) = Some (or_minimum r)
  /\ ffinite F (or_minimum r) = true /\ fleb F (or_minimum r) fx = true /\ or_f_calls r = snd st'.
Proof.
  induction k as [|k IH]; intros st x g h fx st' r HI Hfx Hfin H; cbn [bfgs_loop] in H; cbv zeta in H.
  - injection H as <- <-. cbn. auto 10 using le_refl.
  - assert (Hdone : forall st0, Ok (st0, Some (mkResult x fx (snd st0))) = Ok (st', Some r) -> Inv (fst st0) ->
      Inv (fst st') /\ List.length (or_minimizer r) = List.length x /\ f (or_minimizer r) = Some (or_minimum r)
      /\ ffinite F (or_minimum r) = true /\ fleb F (or_minimum r) fx = true /\ or_f_calls r = snd st').
    { intros st0 [= <- <-] HI0. cbn. auto 10 using le_refl. }
    destruct (negb (oi_f_calls_limit opts =? 0) && (oi_f_calls_limit opts <=? snd st)); [apply (Hdone st H HI)|].
    destruct (negb (ffinite F (inf_norm F OO g)) || fleb F (inf_norm F OO g) (oi_g_abstol opts)); [apply (Hdone st H HI)|].
    apply bind_ok in H as (hg & _ & H). apply bind_ok in H as (d & _ & H). apply bind_ok in H as ([[h1 s] dphi0] & _ & H).
    destruct (ffinite F dphi0) eqn:Ed; cbn [negb orb] in H; [|apply (Hdone st H HI)].
    destruct (fgeb F dphi0 (fzero F)) eqn:Eg; [apply (Hdone st H HI)|].
    apply bind_ok in H as ([st1 lr] & Hls & H). destruct (ls_spec _ _ _ _ _ _ _ _ HI Hls) as [HI1 Hl].
    destruct lr as [[[alpha phi] xn]|]; [|discriminate].
    destruct (Hl _ _ _ eq_refl) as (Hlen & Hstep & Hval & Hphf).
    destruct (C33_step_no_worse W (St * nat) F OO _ ls x s _ fx dphi0 st st1 alpha phi xn L SL Hm Hc1 Hc1f Hfin (not_ge_lt _ Ed Eg) Ed Hls) as (_ & _ & Hle).
    apply bind_ok in H as ([s1 v] & Hfg & H). destruct (rp_fg Inv obj f R _ _ _ _ HI1 Hfg) as [HI2 Hv].
    destruct v as [[fn gn]|]; [|discriminate]. pose proof (Hv _ _ eq_refl) as Hfn. assert (fn = phi) as -> by congruence.
    rewrite Hphf in H. cbn [negb] in H.
    assert (Hrec : forall g' h', bfgs_loop F OO obj opts ls n k (s1, S (snd st1)) xn g' h' phi = Ok (st', Some r) ->
      Inv (fst st') /\ List.length (or_minimizer r) = List.length x /\ f (or_minimizer r) = Some (or_minimum r)
      /\ ffinite F (or_minimum r) = true /\ fleb F (or_minimum r) fx = true /\ or_f_calls r = snd st').
    { intros g' h' H'. apply IH in H' as (A1 & A2 & A3 & A4 & A5 & A6); auto. rewrite A2, Hlen. do 4 (split; auto). split; auto.
      eapply (le_trans F L); eauto. }
    apply bind_ok in H as (dx & _ & H). apply bind_ok in H as (dg & _ & H). apply bind_ok in H as (dd & _ & H).
    destruct (negb (ffinite F dd && fgtb F dd (oo_tiny OO))); [eapply Hrec; eauto|].
    destruct (fgtb F dd (fzero F)); [|eapply Hrec; eauto].
    apply bind_ok in H as (u & _ & H). apply bind_ok in H as (du & _ & H). destruct (ffinite F du); [|eapply Hrec; eauto].
    apply bind_ok in H as (hn & _ & H). eapply Hrec; eauto.
Qed.

Lemma newton_loop_spec : forall k st x bx bf st' r, Inv (fst st) ->
  (bf = finf F \/ f [bx] = Some bf /\ ffinite F bf = true) ->
  newton_loop F OO obj opts ls k st x bx bf = Ok (st', Some r) ->
  Inv (fst st') /\ or_f_calls r = snd st' /\ exists bx', or_minimizer r = [bx']
  /\ ((bx' = bx /\ or_minimum r = bf) \/ (f [bx'] = Some (or_minimum r) /\ ffinite F (or_minimum r) = true /\ fltb F (or_minimum r) bf = true)).
Proof.
  clear Hm Hc1 Hc1f SL.
  induction k as [|k IH]; intros st x bx bf st' r HI Hb H; cbn [newton_loop] in H; cbv zeta in H.
  - injection H as <- <-. cbn. split; [auto|]. split; [auto|]. exists bx. auto.
  - destruct (negb (oi_f_calls_limit opts =? 0) && (oi_f_calls_limit opts <=? snd st)); [injection H as <- <-; cbn; split; [auto|]; split; [auto|]; exists bx; auto|].
    apply bind_ok in H as ([s1 v] & Hfg & H). destruct (rp_fg Inv obj f R _ _ _ _ HI Hfg) as [HI1 Hv].
    destruct v as [[fv gv]|]; [|discriminate]. pose proof (Hv _ _ eq_refl) as Hfv.
    apply bind_ok in H as (g & _ & H). destruct (ffinite F fv) eqn:Ef; cbn [negb orb] in H; [|discriminate].
    destruct (ffinite F g) eqn:Eg; cbn [negb] in H; [|discriminate].
    set (bx1 := if fltb F fv bf then x else bx) in H. set (bf1 := if fltb F fv bf then fv else bf) in H.
    assert (H1 : (bx1 = bx /\ bf1 = bf) \/ (f [bx1] = Some bf1 /\ ffinite F bf1 = true /\ fltb F bf1 bf = true)).
    { unfold bx1, bf1. destruct (fltb F fv bf) eqn:El; auto. }
    assert (Hb1 : bf1 = finf F \/ f [bx1] = Some bf1 /\ ffinite F bf1 = true).
    { destruct H1 as [[-> ->]|(A & B & _)]; auto. }
    assert (Hdone : forall st0, Ok (st0, Some (mkResult [bx1] bf1 (snd st0))) = Ok (st', Some r) -> Inv (fst st0) ->
      Inv (fst st') /\ or_f_calls r = snd st' /\ exists bx', or_minimizer r = [bx']
      /\ ((bx' = bx /\ or_minimum r = bf) \/ (f [bx'] = Some (or_minimum r) /\ ffinite F (or_minimum r) = true /\ fltb F (or_minimum r) bf = true))).
    { intros st0 [= <- <-] HI0. cbn. split; auto. split; auto. exists bx1. auto. }
    destruct (fleb F (oo_abs OO g) (oi_g_abstol opts)); [apply (Hdone (s1, S (snd st)) H HI1)|].
    apply bind_ok in H as ([s2 v2] & Hfg2 & H). destruct (rp_fg Inv obj f R _ _ _ _ HI1 Hfg2) as [HI2 _].
    destruct v2 as [[fp gp]|]; [|discriminate]. apply bind_ok in H as (gplus & _ & H).
    apply bind_ok in H as ([s3 v3] & Hfg3 & H). destruct (rp_fg Inv obj f R _ _ _ _ HI2 Hfg3) as [HI3 _].
    destruct v3 as [[fm gm]|]; [|discriminate]. apply bind_ok in H as (gminus & _ & H).
    destruct (if _ || _ then _ else _) as [s dphi0] in H.
    destruct (negb (ffinite F dphi0) || fgeb F dphi0 (fzero F)); [apply (Hdone (s3, S (S (S (snd st)))) H HI3)|].
    apply bind_ok in H as ([st1 lr] & Hls & H).
    assert (HI4 : Inv (fst st1)) by (eapply (proj1 (ls_spec _ _ _ _ _ _ _ _ (HI3 : Inv (fst (s3, _))) Hls))).
    destruct lr as [[[alpha phi] xn]|]; [|discriminate].
    apply IH in H as (A1 & A2 & bx' & A3 & A4); auto. split; auto. split; auto. exists bx'. split; auto.
    destruct A4 as [[-> ->]|(B1 & B2 & B3)]; auto.
    right. do 2 (split; auto). destruct H1 as [[_ E]|(_ & _ & E)]; [congruence|]. eapply (ol_trans F L); eauto.
Qed.

End Minimisers.

(** BFGS: the minimum returned is the objective at the minimiser, finite, and at most the value at the start. *)
Theorem C33_bfgs_no_worse : forall (St W : Type) (F : FloatOps W) (OO : OptOps W) (obj : objective St W) Inv f opts ls st x0 st' r,
  OrderLaws F -> SignLaws F (oo_half OO) -> ffinite F (bt_maxstep ls) = false ->
  fltb F (fzero F) (bt_c1 ls) = true -> ffinite F (bt_c1 ls) = true ->
  repeatable Inv obj f -> Inv st ->
  bfgs_minimize F OO obj opts ls st x0 = Ok (st', Some r) ->
  exists v0, f x0 = Some v0 /\ ffinite F v0 = true
    /\ List.length (or_minimizer r) = List.length x0 /\ f (or_minimizer r) = Some (or_minimum r)
    /\ ffinite F (or_minimum r) = true /\ fleb F (or_minimum r) v0 = true.
Proof.
  intros St W F OO obj Inv f opts ls st x0 st' r L SL Hm Hc Hcf R HI H. unfold bfgs_minimize in H.
  apply bind_ok in H as ([s v] & Hfg & H). destruct (rp_fg Inv obj f R _ _ _ _ HI Hfg) as [HI1 Hv].
  destruct v as [[fx g]|]; [|discriminate]. destruct (ffinite F fx) eqn:Ef; cbn [negb] in H; [|discriminate].
  pose proof (Hv _ _ eq_refl) as Hfx. exists fx. split; auto. split; auto.
  apply (bfgs_loop_spec F OO obj Inv f R opts ls L SL Hm Hc Hcf) in H as (_ & A2 & A3 & A4 & A5 & _); auto.
Qed.

(** Newton in one dimension: as soon as one iteration is allowed the same holds; with no iteration the result is
    the start with the value infinity. *)
Theorem C33_newton_no_worse : forall (St W : Type) (F : FloatOps W) (OO : OptOps W) (obj : objective St W) Inv f opts ls st x0 st' r,
  OrderLaws F -> SignLaws F (oo_half OO) -> repeatable Inv obj f -> Inv st ->
  newton_1d_minimize F OO obj opts ls st x0 = Ok (st', Some r) ->
  (oi_iterations opts = 0 -> or_minimizer r = [x0] /\ or_minimum r = finf F)
  /\ (1 <= oi_iterations opts ->
      exists v0 x, f [x0] = Some v0 /\ ffinite F v0 = true /\ or_minimizer r = [x] /\ f [x] = Some (or_minimum r)
        /\ ffinite F (or_minimum r) = true /\ fleb F (or_minimum r) v0 = true).
Proof.
  intros St W F OO obj Inv f opts ls st x0 st' r L SL R HI H. unfold newton_1d_minimize in H.
  destruct (oi_iterations opts) as [|k] eqn:Ek.
  - cbn in H. injection H as <- <-. split; [auto|lia].
  - split; [discriminate|]. intros _. cbn [newton_loop] in H. cbv zeta in H. cbn [fst snd] in H.
    assert (Hnot : negb (oi_f_calls_limit opts =? 0) && (oi_f_calls_limit opts <=? 0) = false) by (destruct (oi_f_calls_limit opts); reflexivity).
    rewrite Hnot in H.
    apply bind_ok in H as ([s1 v] & Hfg & H). destruct (rp_fg Inv obj f R _ _ _ _ HI Hfg) as [HI1 Hv].
    destruct v as [[fv gv]|]; [|discriminate]. pose proof (Hv _ _ eq_refl) as Hfv.
    apply bind_ok in H as (g & _ & H). destruct (ffinite F fv) eqn:Ef; cbn [negb orb] in H; [|discriminate].
    destruct (ffinite F g) eqn:Eg; cbn [negb] in H; [|discriminate].
    rewrite (sl_inf F _ SL _ Ef) in H. exists fv.
    assert (Hdone : forall st0, Ok (st0, Some (mkResult [x0] fv (snd st0))) = Ok (st', Some r) ->
      exists x, f [x0] = Some fv /\ ffinite F fv = true /\ or_minimizer r = [x] /\ f [x] = Some (or_minimum r)
        /\ ffinite F (or_minimum r) = true /\ fleb F (or_minimum r) fv = true).
    { intros st0 [= <- <-]. exists x0. cbn. auto 10 using (le_refl F OO SL). }
    destruct (fleb F (oo_abs OO g) (oi_g_abstol opts)); [apply (Hdone (s1, 1) H)|].
    apply bind_ok in H as ([s2 v2] & Hfg2 & H). destruct (rp_fg Inv obj f R _ _ _ _ HI1 Hfg2) as [HI2 _].
    destruct v2 as [[fp gp]|]; [|discriminate]. apply bind_ok in H as (gplus & _ & H).
    apply bind_ok in H as ([s3 v3] & Hfg3 & H). destruct (rp_fg Inv obj f R _ _ _ _ HI2 Hfg3) as [HI3 _].
    destruct v3 as [[fm gm]|]; [|discriminate]. apply bind_ok in H as (gminus & _ & H).
    destruct (if _ || _ then _ else _) as [s dphi0] in H.
    destruct (negb (ffinite F dphi0) || fgeb F dphi0 (fzero F)); [apply (Hdone (s3, 3) H)|].
    apply bind_ok in H as ([st1 lr] & Hls & H).
    assert (HI4 : Inv (fst st1)) by (eapply (proj1 (ls_spec F OO obj Inv f R opts ls _ _ _ _ _ _ _ _ (HI3 : Inv (fst (s3, _))) Hls))).
    destruct lr as [[[alpha phi] xn]|]; [|discriminate].
    apply (newton_loop_spec F OO obj Inv f R opts ls L) in H as (A1 & A2 & bx' & A3 & A4); auto.
    exists bx'. split; auto. split; auto. split; auto. destruct A4 as [[-> ->]|(B1 & B2 & B3)].
    + split; auto. split; auto. apply (le_refl F OO SL); auto.
    + split; auto. split; auto. unfold fleb. rewrite B3. reflexivity.
Qed.

(** ** The call budget *)
(** [cnt] counts the calls of the objective. *)
Definition counts_calls {St W} (cnt : St -> nat) (obj : objective St W) : Prop :=
  (forall st x st' v, ob_f obj st x = Ok (st', v) -> cnt st' = S (cnt st))
  /\ (forall st x st' v, ob_fg obj st x = Ok (st', v) -> cnt st' = S (cnt st)).

Section Budget.
Context {St W : Type} (F : FloatOps W) (OO : OptOps W) (obj : objective St W) (cnt : St -> nat) (HC : counts_calls cnt obj)
  (opts : optim_options W) (ls : backtracking W).
Let limit := oi_f_calls_limit opts.

(** From one state to the next: the counter agrees, at most [k] calls more, and none once the limit is reached. *)
Definition spent (k : nat) (a b : St * nat) : Prop :=
  cnt (fst b) + snd a = cnt (fst a) + snd b /\ snd a <= snd b <= snd a + k /\ (limit <> 0 -> snd b <= Nat.max (snd a) limit).

Lemma spent_refl k a : spent k a a.
Proof. unfold spent. lia. Qed.
Lemma spent_trans j k a b c : spent j a b -> spent k b c -> spent (j + k) a c.
Proof. unfold spent. intros (A1 & A2 & A3) (B1 & B2 & B3). split; [lia|]. split; [lia|]. intros H. specialize (A3 H). specialize (B3 H). lia. Qed.
Lemma spent_mono j k a b : j <= k -> spent j a b -> spent k a b.
Proof. unfold spent. intros. lia. Qed.

Lemma budgeted_spent st x st' v : budgeted F obj limit st x = Ok (st', v) -> spent 1 st st'.
Proof.
  destruct st as [s c]. unfold budgeted. destruct (negb (limit =? 0) && (limit <=? c)) eqn:E.
  - intros [= <- _]. apply spent_refl.
  - intros H. apply bind_ok in H as ([s1 w] & Hw & H). injection H as <- _. apply (proj1 HC) in Hw. unfold spent. cbn.
    rewrite Hw. split; [lia|]. split; [lia|]. intros Hl. lia.
Qed.
Lemma halve_spent x s : forall k st a last x0 st' a' o xn,
  halve F OO (budgeted F obj limit) x s k st a last x0 = Ok (st', a', o, xn) -> spent k st st'.
Proof.
  induction k as [|k IH]; intros st a last x0 st' a' o xn H; cbn [halve] in H.
  - injection H as <- _ _ _. apply spent_refl.
  - apply bind_ok in H as (xn1 & Ha & H). apply bind_ok in H as ([st1 ok] & Hp1 & H). apply budgeted_spent in Hp1.
    destruct (match ok with Some v => ffinite F v | None => false end); [injection H as <- _ _ _; eapply spent_mono; [|exact Hp1]; lia|].
    destruct (fleb F (fmul F a (oo_half OO)) (fzero F)); [injection H as <- _ _ _; eapply spent_mono; [|exact Hp1]; lia|].
    apply IH in H. exact (spent_trans 1 k _ _ _ Hp1 H).
Qed.
Lemma armijo_spent x s phi0 dphi0 : forall k first st alpha phi aprev pprev xn st' r,
  armijo_loop F OO (budgeted F obj limit) ls x s phi0 dphi0 k first st alpha phi aprev pprev xn = Ok (st', r) -> spent k st st'.
Proof.
  induction k as [|k IH]; intros first st alpha phi aprev pprev xn st' r H; cbn [armijo_loop] in H; [injection H as <- _; apply spent_refl|].
  destruct (fleb F phi _); [injection H as <- _; apply spent_refl|]. cbv zeta in H.
  match type of H with (if ?c then _ else _) = _ => destruct c end; [injection H as <- _; apply spent_refl|].
  apply bind_ok in H as (xn1 & Hx & H). apply bind_ok in H as ([st1 v] & Hv & H). apply budgeted_spent in Hv.
  assert (Hv1 : spent (S k) st st1) by (eapply spent_mono; [|exact Hv]; lia).
  destruct v as [w|]; [|injection H as <- _; auto]. destruct (ffinite F w); cbn [negb] in H; [|injection H as <- _; auto].
  apply IH in H. exact (spent_trans 1 k _ _ _ Hv H).
Qed.
Lemma linesearch_spent x s alpha0 phi0 dphi0 st st' r :
  linesearch F OO (budgeted F obj limit) ls x s alpha0 phi0 dphi0 st = Ok (st', r) -> spent (oo_finite_max OO + bt_iterations ls) st st'.
Proof.
  intros H. unfold linesearch in H. destruct (_ || _); [injection H as <- _; apply spent_refl|]. cbv zeta in H.
  apply bind_ok in H as ([[[st1 a] ok] x1] & Hh & H). apply halve_spent in Hh.
  assert (Hh1 : spent (oo_finite_max OO + bt_iterations ls) st st1) by (eapply spent_mono; [|exact Hh]; lia).
  destruct ok as [p|]; [|injection H as <- _; auto]. destruct (ffinite F p); cbn [negb] in H; [|injection H as <- _; auto].
  apply armijo_spent in H. exact (spent_trans _ _ _ _ _ Hh H).
Qed.

(** Overall bound of a run: counter agrees, bounded work, overshoot at most [over]. *)
Definition total (k over : nat) (a b : St * nat) (r : option (optim_result W)) : Prop :=
  cnt (fst b) + snd a = cnt (fst a) + snd b /\ snd a <= snd b <= snd a + k
  /\ (limit <> 0 -> snd b <= Nat.max (snd a) (limit + over)) /\ (forall x, r = Some x -> or_f_calls x = snd b).

Let per := oo_finite_max OO + bt_iterations ls.

Lemma bfgs_total n : forall k st x g h fx st' r, bfgs_loop F OO obj opts ls n k st x g h fx = Ok (st', r) -> total (k * (per + 1)) 1 st st' r.
Proof.
  induction k as [|k IH]; intros st x g h fx st' r H; cbn [bfgs_loop] in H; cbv zeta in H.
  - injection H as <- <-. unfold total. split; [lia|]. split; [lia|]. split; [lia|]. intros y [= <-]. reflexivity.
  - assert (Hdone : forall y, Ok (st, Some (mkResult y fx (snd st))) = Ok (st', r) -> total (S k * (per + 1)) 1 st st' r).
    { intros y [= <- <-]. unfold total. split; [lia|]. split; [lia|]. split; [lia|]. intros z [= <-]. reflexivity. }
    destruct (negb (oi_f_calls_limit opts =? 0) && (oi_f_calls_limit opts <=? snd st)) eqn:Elim; [apply (Hdone x H)|].
    destruct (negb (ffinite F (inf_norm F OO g)) || fleb F (inf_norm F OO g) (oi_g_abstol opts)); [apply (Hdone x H)|].
    apply bind_ok in H as (hg & _ & H). apply bind_ok in H as (d & _ & H). apply bind_ok in H as ([[h1 s] dphi0] & _ & H).
    destruct (negb (ffinite F dphi0) || fgeb F dphi0 (fzero F)); [apply (Hdone x H)|].
    apply bind_ok in H as ([st1 lr] & Hls & H). apply linesearch_spent in Hls. fold per in Hls. destruct Hls as (S1 & S2 & S3).
    destruct lr as [[[alpha phi] xn]|].
    2:{ injection H as <- <-. unfold total. split; [lia|]. split; [lia|]. split; [|discriminate]. intros Hl. specialize (S3 Hl). lia. }
    apply bind_ok in H as ([s1 v] & Hfg & H). apply (proj2 HC) in Hfg.
    assert (Hlim : limit <> 0 -> snd st < limit).
    { intros Hl. unfold limit in *. apply andb_false_iff in Elim as [E|E]; [apply negb_false_iff, Nat.eqb_eq in E; lia|apply Nat.leb_gt in E; auto]. }
    assert (Hone : forall r', (forall y, r' = Some y -> or_f_calls y = S (snd st1)) -> total (S k * (per + 1)) 1 st (s1, S (snd st1)) r').
    { intros r' Hr'. unfold total. cbn [fst snd]. rewrite Hfg. split; [lia|]. split; [lia|]. split; [|auto]. intros Hl. specialize (S3 Hl). specialize (Hlim Hl). lia. }
    assert (Hrec : forall x' g' h' fx', bfgs_loop F OO obj opts ls n k (s1, S (snd st1)) x' g' h' fx' = Ok (st', r) -> total (S k * (per + 1)) 1 st st' r).
    { intros x' g' h' fx' H'. apply IH in H' as (T1 & T2 & T3 & T4). cbn [fst snd] in *. rewrite Hfg in T1. unfold total. split; [lia|]. split; [lia|]. split; [|auto].
      intros Hl. specialize (S3 Hl). specialize (T3 Hl). specialize (Hlim Hl). lia. }
    destruct v as [[fn gn]|]; [|injection H as <- <-; apply Hone; discriminate].
    destruct (ffinite F fn); cbn [negb] in H; [|injection H as <- <-; apply Hone; intros y [= <-]; reflexivity].
    apply bind_ok in H as (dx & _ & H). apply bind_ok in H as (dg & _ & H). apply bind_ok in H as (dd & _ & H).
    destruct (negb (ffinite F dd && fgtb F dd (oo_tiny OO))); [eapply Hrec; eauto|].
    destruct (fgtb F dd (fzero F)); [|eapply Hrec; eauto].
    apply bind_ok in H as (u & _ & H). apply bind_ok in H as (du & _ & H). destruct (ffinite F du); [|eapply Hrec; eauto].
    apply bind_ok in H as (hn & _ & H). eapply Hrec; eauto.
Qed.

Lemma newton_total : forall k st x bx bf st' r, newton_loop F OO obj opts ls k st x bx bf = Ok (st', r) -> total (k * (per + 3)) 2 st st' r.
Proof.
  induction k as [|k IH]; intros st x bx bf st' r H; cbn [newton_loop] in H; cbv zeta in H.
  - injection H as <- <-. unfold total. split; [lia|]. split; [lia|]. split; [lia|]. intros y [= <-]. reflexivity.
  - destruct (negb (oi_f_calls_limit opts =? 0) && (oi_f_calls_limit opts <=? snd st)) eqn:Elim.
    { injection H as <- <-. unfold total. split; [lia|]. split; [lia|]. split; [lia|]. intros y [= <-]. reflexivity. }
    assert (Hlim : limit <> 0 -> snd st < limit).
    { intros Hl. unfold limit in *. apply andb_false_iff in Elim as [E|E]; [apply negb_false_iff, Nat.eqb_eq in E; lia|apply Nat.leb_gt in E; auto]. }
    assert (Hpart : forall s0 j r', cnt s0 = cnt (fst st) + j -> j <= 3 -> (forall y, r' = Some y -> or_f_calls y = snd st + j) ->
       total (S k * (per + 3)) 2 st (s0, snd st + j) r').
    { intros s0 j r' E Hj Hr'. unfold total. cbn [fst snd]. split; [lia|]. split; [lia|]. split; [|auto]. intros Hl. specialize (Hlim Hl). lia. }
    apply bind_ok in H as ([s1 v] & Hfg & H). apply (proj2 HC) in Hfg.
    replace (S (snd st)) with (snd st + 1) in H by lia.
    destruct v as [[fv gv]|]; [|injection H as <- <-; apply Hpart; try lia; discriminate].
    apply bind_ok in H as (g & _ & H). destruct (negb (ffinite F fv) || negb (ffinite F g)); [injection H as <- <-; apply Hpart; try lia; discriminate|].
    destruct (fleb F (oo_abs OO g) (oi_g_abstol opts)); [injection H as <- <-; apply Hpart; try lia; intros y [= <-]; reflexivity|].
    apply bind_ok in H as ([s2 v2] & Hfg2 & H). apply (proj2 HC) in Hfg2. cbn [fst snd] in *.
    replace (S (snd st + 1)) with (snd st + 2) in H by lia.
    destruct v2 as [[fp gp]|]; [|injection H as <- <-; apply Hpart; try lia; discriminate]. apply bind_ok in H as (gplus & _ & H).
    apply bind_ok in H as ([s3 v3] & Hfg3 & H). apply (proj2 HC) in Hfg3. cbn [fst snd] in *.
    replace (S (snd st + 2)) with (snd st + 3) in H by lia.
    destruct v3 as [[fm gm]|]; [|injection H as <- <-; apply Hpart; try lia; discriminate]. apply bind_ok in H as (gminus & _ & H).
    destruct (if _ || _ then _ else _) as [s dphi0] in H.
    destruct (negb (ffinite F dphi0) || fgeb F dphi0 (fzero F)); [injection H as <- <-; apply Hpart; try lia; intros y [= <-]; reflexivity|].
    apply bind_ok in H as ([st1 lr] & Hls & H). apply linesearch_spent in Hls. fold per in Hls. destruct Hls as (S1 & S2 & S3). cbn [fst snd] in *.
    destruct lr as [[[alpha phi] xn]|].
    + apply IH in H as (T1 & T2 & T3 & T4). unfold total. split; [lia|]. split; [lia|]. split; [|auto].
      intros Hl. specialize (S3 Hl). specialize (T3 Hl). specialize (Hlim Hl). lia.
    + injection H as <- <-. unfold total. split; [lia|]. split; [lia|]. split; [|discriminate].
      intros Hl. specialize (S3 Hl). specialize (Hlim Hl). lia.
Qed.
End Budget.

(** The objective is called at most once more than the limit by BFGS and at most twice more by Newton, whatever the
    objective does; without a limit the number of calls is bounded by the iteration counts. The number reported is the
    number of calls made. *)
Theorem C33_bfgs_budget : forall (St W : Type) (F : FloatOps W) (OO : OptOps W) (obj : objective St W) cnt opts ls st x0 st' calls r,
  counts_calls cnt obj -> bfgs_minimize F OO obj opts ls st x0 = Ok (st', calls, r) ->
  cnt st' = cnt st + calls
  /\ (oi_f_calls_limit opts <> 0 -> calls <= oi_f_calls_limit opts + 1)
  /\ calls <= 1 + oi_iterations opts * (oo_finite_max OO + bt_iterations ls + 1)
  /\ (forall x, r = Some x -> or_f_calls x = calls).
Proof.
  intros St W F OO obj cnt opts ls st x0 st' calls r HC H. unfold bfgs_minimize in H.
  apply bind_ok in H as ([s v] & Hfg & H). apply (proj2 HC) in Hfg.
  destruct v as [[fx g]|]; [|injection H as <- <- <-; split; [lia|]; split; [lia|]; split; [lia|discriminate]].
  destruct (ffinite F fx); cbn [negb] in H; [|injection H as <- <- <-; split; [lia|]; split; [lia|]; split; [lia|discriminate]].
  apply (bfgs_total F OO obj cnt HC) in H as (T1 & T2 & T3 & T4). cbn [fst snd] in *.
  split; [lia|]. split; [|split; [lia|auto]]. intros Hl. specialize (T3 Hl). lia.
Qed.
Theorem C33_newton_budget : forall (St W : Type) (F : FloatOps W) (OO : OptOps W) (obj : objective St W) cnt opts ls st x0 st' calls r,
  counts_calls cnt obj -> newton_1d_minimize F OO obj opts ls st x0 = Ok (st', calls, r) ->
  cnt st' = cnt st + calls
  /\ (oi_f_calls_limit opts <> 0 -> calls <= oi_f_calls_limit opts + 2)
  /\ calls <= oi_iterations opts * (oo_finite_max OO + bt_iterations ls + 3)
  /\ (forall x, r = Some x -> or_f_calls x = calls).
Proof.
  intros St W F OO obj cnt opts ls st x0 st' calls r HC H. unfold newton_1d_minimize in H.
  apply (newton_total F OO obj cnt HC) in H as (T1 & T2 & T3 & T4). cbn [fst snd] in *.
  split; [lia|]. split; [|split; [lia|auto]]. intros Hl. specialize (T3 Hl). lia.
Qed.

(** ** Cases *)
Definition xq_abs (x : xq) : xq := if xlt x (XF 0) then xneg x else x.
(** 1e-12 and the square root of the machine epsilon are rounded here; no square root is needed in the cases. *)
Definition xq_opt_ops : OptOps xq :=
  mkOptOps xq_abs (fun x => x) (fun a b => if xlt a b then b else a) (fun a b => if xlt b a then b else a)
    (XF 2) (XF 3) (XF (1 # 2)) (XF (1 # 1000000)) (XF (1 # 1000000)) (XF (1 # 1024)) 52.
Lemma xq_sign_laws : SignLaws xqops (oo_half xq_opt_ops).
Proof.
  assert (Hle : forall a b, fleb xqops (XF a) (XF b) = true <-> (a <= b)%Q).
  { intros a b. unfold fleb. rewrite orb_true_iff. rewrite (ex_lt _ _ xq_exact), (ex_eq _ _ xq_exact) by reflexivity. cbn [xval]. rewrite Qle_lteq. tauto. }
  assert (Hlt : forall a b, fltb xqops (XF a) (XF b) = true <-> (a < b)%Q).
  { intros a b. rewrite (ex_lt _ _ xq_exact) by reflexivity. cbn [xval]. tauto. }
  split.
  - intros [a|[]|]; try discriminate. intros _. apply (ex_eq _ _ xq_exact); reflexivity.
  - reflexivity.
  - intros [a|[]|]; try discriminate. reflexivity.
  - intros [a|[]|]; try discriminate. intros [b|[]|]; cbn [fzero xqops]; intros _; try discriminate.
    + change (fadd xqops (XF a) (XF b)) with (XF (a + b)). change (fzero xqops) with (XF 0). rewrite !Hle. intros. lra.
    + intros _. reflexivity.
  - intros [a|[]|]; try discriminate; intros [b|[]|]; try discriminate. change (fzero xqops) with (XF 0).
    change (fmul xqops (XF a) (XF b)) with (XF (a * b)). rewrite !Hlt, Hle. intros Ha _ Hb _. apply Qmult_le_0_compat; lra.
  - intros [a|[]|]; try discriminate; intros [b|[]|]; try discriminate; change (fzero xqops) with (XF 0).
    + change (fmul xqops (XF a) (XF b)) with (XF (a * b)). rewrite !Hle, Hlt. intros Ha Hb _.
      setoid_replace (a * b)%Q with (- (a * (- b)))%Q by ring. assert (0 <= a * - b)%Q; [apply Qmult_le_0_compat; lra|lra].
    + intros _ Hb _. apply Hlt in Hb. cbn [fmul xqops xmul xeq orb].
      assert (Qeq_bool b 0 = false) as -> by (apply not_true_is_false; rewrite Qeq_bool_iff; lra).
      unfold xsign. change (xlt (XF b) (XF 0)) with (fltb xqops (XF b) (XF 0)). apply Hlt in Hb. rewrite Hb. reflexivity.
  - intros [a|[]|]; try discriminate. reflexivity.
Qed.

Definition default_bt : backtracking xq := mkBT (XF (1 # 10000)) (XF (1 # 2)) (XF (1 # 10)) 1000 3 (XInf false).
(** (x - 1)^2 + 10 (y + 2)^2, the objective of the repository's own test; the state counts calls. *)
Definition quad (x y : Q) : Q := Qred ((x - 1) * (x - 1) + 10 * ((y + 2) * (y + 2))).
Definition quad_f (p : list xq) : option xq := match p with [XF x; XF y] => Some (XF (quad x y)) | _ => None end.
Definition quad_obj : objective nat xq :=
  mkObj (fun n p => Ok (S n, quad_f p))
        (fun n p => Ok (S n, match p with
                             | [XF x; XF y] => Some (XF (quad x y), [XF (Qred (2 * (x - 1))); XF (Qred (20 * (y + 2)))])
                             | _ => None end)).
Lemma quad_repeatable : repeatable (fun _ => True) quad_obj quad_f.
Proof.
  split.
  - intros st x st' v _ [= _ <-]. auto.
  - intros st x st' v _ H. split; auto. cbn in H. injection H as _ <-. intros a g H. unfold quad_f.
    destruct x as [|[x| |] [|[y| |] [|]]]; try discriminate. injection H as <- _. reflexivity.
Qed.
Lemma quad_counts : counts_calls (fun n => n) quad_obj.
Proof. split; intros st x st' v [= <- _]; reflexivity. Qed.

(** Everything the theorems assume holds of this objective, and minimising works. *)
Example C33_case : OrderLaws xqops /\ SignLaws xqops (oo_half xq_opt_ops) /\ repeatable (fun _ => True) quad_obj quad_f
  /\ counts_calls (fun n => n) quad_obj
  /\ exists r, bfgs_minimize xqops xq_opt_ops quad_obj (mkOptim 2 8 (XF (1 # 100000))) default_bt 0 [XF 0; XF 0] = Ok (6, 6, Some r)
     /\ exists v, or_minimum r = XF v /\ (v < 2)%Q /\ quad_f [XF 0; XF 0] = Some (XF 41).
Proof.
  split; [apply xq_order_laws|]. split; [apply xq_sign_laws|]. split; [apply quad_repeatable|]. split; [apply quad_counts|].
  eexists. split; [vm_compute; reflexivity|]. eexists. split; [reflexivity|]. split; reflexivity.
Qed.

(** A bigger budget may return less: with one call allowed the start is returned, with two nothing is, because the budget
    runs out inside the line search, and the caller learns nothing about the point it started from. *)
Example C33_budget_discards_refuted :
  (exists r, bfgs_minimize xqops xq_opt_ops quad_obj (mkOptim 2 1 (XF (1 # 100000))) default_bt 0 [XF 0; XF 0] = Ok (1, 1, Some r)
     /\ or_minimum r = XF 41)
  /\ bfgs_minimize xqops xq_opt_ops quad_obj (mkOptim 2 2 (XF (1 # 100000))) default_bt 0 [XF 0; XF 0] = Ok (2, 2, None).
Proof. split; [eexists; split; [vm_compute; reflexivity|vm_compute; reflexivity]|vm_compute; reflexivity]. Qed.

(** (x - 1)^2; Newton reaches the minimum in one step, and overshoots a limit of one call by two. *)
Definition line_f (p : list xq) : option xq := match p with [XF x] => Some (XF (Qred ((x - 1) * (x - 1)))) | _ => None end.
Definition line_obj : objective nat xq :=
  mkObj (fun n p => Ok (S n, line_f p))
        (fun n p => Ok (S n, match p with
                             | [XF x] => Some (XF (Qred ((x - 1) * (x - 1))), [XF (Qred (2 * (x - 1)))])
                             | _ => None end)).
Example C33_newton_case :
  exists r, newton_1d_minimize xqops xq_opt_ops line_obj (mkOptim 3 0 (XF (1 # 100000))) default_bt 0 (XF 0) = Ok (5, 5, Some r)
    /\ (exists v, or_minimum r = XF v /\ (v == 0)%Q) /\ line_f [XF 0] = Some (XF 1).
Proof. eexists. split; [vm_compute; reflexivity|]. split; [eexists; split; [reflexivity|reflexivity]|reflexivity]. Qed.
Example C33_newton_limit_refuted :
  newton_1d_minimize xqops xq_opt_ops line_obj (mkOptim 3 1 (XF (1 # 100000))) default_bt 0 (XF 0) = Ok (3, 3, None).
Proof. vm_compute. reflexivity. Qed.
Print Assumptions C33_bfgs_no_worse.
Print Assumptions C33_newton_no_worse.
Print Assumptions C33_bfgs_budget.
Print Assumptions C33_newton_budget.
Print Assumptions C33_armijo.
Print Assumptions C33_exact_decrease.
