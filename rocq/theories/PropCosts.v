(** Property C50: losses and costs during a search are numbers or +infinity, never NaN. *)
From Coq Require Import QArith SpecFloat.
From Verif Require Import Base BaseLemmas Node Compile Eval Deriv Instances Rng Registry Mutation Complexity Num Member SortProofs PropHof Selection PropSelection Simplify Conditioning Dataset
  Loss PropLoss Optim PropOptim ConstOpt Frames Evolution PropEvolution Search PropSearch PropIds Ready Invariant PropWhole PropBest.
Local Open Scope nat_scope.

(** ** Specification *)

(** A number or +infinity; the cost of such a loss. *)
Definition numeric {T} (F : FloatOps T) (x : T) : Prop := ffinite F x = true \/ x = finf F.
Definition priced {T} (F : FloatOps T) (LO : LossOps T) (parsimony : T) (use_baseline : bool) (bl : option T) (m : member T) : Prop :=
  numeric F (m_loss m)
  /\ (m_cost m = loss_to_cost F LO (m_loss m) (m_complexity m) parsimony use_baseline bl \/ (m_loss m = finf F /\ m_cost m = finf F)).

(** ** Proof *)
Section Costs.
Context {T : Type} (E : evo_cfg T).
Local Notation C := (eo_C E).
Local Notation F := (ec_F (eo_C E)).
Local Notation nu m := (numeric F (m_loss m)).

Lemma evaluate_numeric m d bl ev m' ev' ok : evaluate C m d bl ev = Ok (m', ev', ok) -> nu m'.
Proof.
  unfold evaluate. intros H. repeat (apply bind_ok in H as (? & ? & H) || destruct x as [x ?] || destruct x0 as [x0 ?]).
  unfold numeric.
  repeat match type of H with
  | (let! _ := _ in _) = _ => apply bind_ok in H as (? & ? & H)
  | (if ?b then _ else _) = _ => destruct b eqn:?
  | (let '(_, _) := ?p in _) = _ => destruct p
  end; try (injection H as <- _ _; cbn; auto).
  left. apply negb_false_iff. auto.
Qed.
Lemma copy_numeric id b m m' nf : nu m -> copy_parent E id b m nf = Ok m' -> nu m'.
Proof. unfold copy_parent. intros Hm H. apply bind_ok in H as (x & _ & H). injection H as <-. exact Hm. Qed.
Lemma next_generation_numeric s m d bl temp cur st baby acc k s' : nu m -> next_generation E s m d bl temp cur st = Ok (baby, acc, k, s') -> nu baby.
Proof.
  intros Hm Hng. unfold next_generation in Hng. cbv zeta in Hng.
  apply bind_ok in Hng as ([c g] & _ & Hng). apply bind_ok in Hng as ([[[found evals] g1] ev1] & Ha & Hng). destruct found as [[tree imm]|].
  - destruct imm.
    + apply bind_ok in Hng as (b1 & Hb1 & Hng). apply bind_ok in Hng as (b2 & Hb2 & Hng). apply bind_ok in Hng as (cx & _ & Hng). injection Hng as <- _ _ _. exact Hm.
    + apply bind_ok in Hng as (b1 & Hb1 & Hng). apply bind_ok in Hng as ([[b2 ev2] ok] & He & Hng). apply evaluate_numeric in He. destruct (_ || _).
      * apply bind_ok in Hng as (rj & Hrj & Hng). injection Hng as <- _ _ _. exact (copy_numeric _ _ _ _ _ Hm Hrj).
      * apply bind_ok in Hng as (prob & _ & Hng). destruct (rng_real g1) as [u g2]. destruct (fltb F prob u).
        -- apply bind_ok in Hng as (rj & Hrj & Hng). injection Hng as <- _ _ _. exact (copy_numeric _ _ _ _ _ Hm Hrj).
        -- injection Hng as <- _ _ _. exact He.
  - apply bind_ok in Hng as (rj & Hrj & Hng). injection Hng as <- _ _ _. exact (copy_numeric _ _ _ _ _ Hm Hrj).
Qed.
Lemma crossover_numeric m1 m2 d bl cur : nu m1 -> nu m2 -> forall n s b1 b2 acc k s', crossover_loop E n s m1 m2 d bl cur = Ok (b1, b2, acc, k, s') -> nu b1 /\ nu b2.
Proof.
  intros T1 T2. induction n as [|n IH]; intros s b1 b2 acc k s' Hc; [cbn in Hc; injection Hc as <- <- _ _ _; auto|]. cbn [crossover_loop] in Hc.
  apply bind_ok in Hc as ([[c1 c2] g] & Hx & Hc). apply bind_ok in Hc as (ok1 & Hk1 & Hc). apply bind_ok in Hc as (ok & Hk & Hc).
  destruct ok; [|eapply IH; exact Hc]. cbv zeta in Hc.
  apply bind_ok in Hc as (y1 & Hy1 & Hc). apply bind_ok in Hc as (y2 & Hy2 & Hc). apply bind_ok in Hc as ([[z1 ev1] o1] & Hz1 & Hc).
  apply bind_ok in Hc as ([[z2 ev2] o2] & Hz2 & Hc). injection Hc as <- <- <- _ <-. split; eapply evaluate_numeric; eauto.
Qed.
Lemma evol_step_numeric cur pop s d bl temp st pop' s' k : Forall (fun m => nu m) pop -> evol_step E pop s d bl temp cur st = Ok (pop', s', k) -> Forall (fun m => nu m) pop'.
Proof.
  intros Hp Hs. cut (each_new (fun m => nu m) pop pop').
  { intros [_ Hn]. rewrite Forall_forall in *. intros m Hm. destruct (Hn m Hm) as [Hi|]; auto. }
  unfold evol_step in Hs. destruct (rng_real (es_rng s)) as [u g]. rewrite Forall_forall in Hp.
  destruct (fgtb F u (eo_crossover_prob E)).
  - apply bind_ok in Hs as ([a g1] & Ht & Hs). apply tournament_in in Ht. apply bind_ok in Hs as ([[[b acc] k1] s1] & Hn & Hs).
    apply next_generation_numeric in Hn; auto. destruct (negb acc && eo_skip_failures E); [injection Hs as <- _ _; apply each_new_refl|].
    apply bind_ok in Hs as (p1 & Hrp & Hs). injection Hs as <- _ _. eapply replace_oldest_new; eauto.
  - apply bind_ok in Hs as ([a1 g1] & Ht1 & Hs). apply tournament_in in Ht1. apply bind_ok in Hs as ([a2 g2] & Ht2 & Hs). apply tournament_in in Ht2.
    apply bind_ok in Hs as ([[[[b1 b2] acc] k1] s1] & Hn & Hs). apply crossover_numeric in Hn as [Hb1 Hb2]; auto.
    destruct (negb acc && eo_skip_failures E); [injection Hs as <- _ _; apply each_new_refl|].
    apply bind_ok in Hs as (p1 & Hrp & Hs). injection Hs as <- _ _. eapply replace_two_new; eauto.
Qed.
Lemma evol_steps_numeric cur d bl temp st : forall n pop s ev pop' s' k, Forall (fun m => nu m) pop ->
  evol_steps E n pop s d bl temp cur st ev = Ok (pop', s', k) -> Forall (fun m => nu m) pop'.
Proof.
  induction n as [|n IH]; intros pop s ev pop' s' k Hp Hs; cbn in Hs; [injection Hs as <- _ _; auto|].
  apply bind_ok in Hs as ([[p1 s1] k1] & H1 & Hs). apply evol_step_numeric in H1; auto. eapply IH; [|exact Hs]; auto.
Qed.
Lemma evaluate_members_numeric d bl : forall ms ev ms' ev', evaluate_members E ms ev d bl = Ok (ms', ev') -> Forall (fun m => nu m) ms'.
Proof.
  induction ms as [|m ms IH]; intros ev ms' ev' H; cbn in H; [injection H as <- _; constructor|].
  apply bind_ok in H as ([[m1 ev1] ok] & H1 & H). apply bind_ok in H as ([ms1 ev2] & H2 & H). injection H as <- _. constructor; [eapply evaluate_numeric; eauto|eauto].
Qed.
Lemma second_half_numeric pop s gc full d bl pop' s' gc' k : optimize_and_simplify_population E pop s gc full d bl = Ok (pop', s', gc', k) -> Forall (fun m => nu m) pop'.
Proof.
  intros Ho. unfold optimize_and_simplify_population in Ho. apply bind_ok in Ho as (p1 & _ & Ho). apply bind_ok in Ho as ([[[p2 s2] gc2] k2] & _ & Ho).
  apply bind_ok in Ho as ([p3 ev3] & E3 & Ho). injection Ho as <- _ _ _. eapply evaluate_members_numeric; eauto.
Qed.
End Costs.

Section Use.
Context {T W : Type} (S0 : search_cfg T W) (full : dataset T) (bl : option T) (B : nat) (H : search_ok S0 full B).
Local Notation E := (sc_E S0).
Local Notation C := (eo_C (sc_E S0)).
Local Notation F := (ec_F (eo_C (sc_E S0))).
Local Notation maxsize := (sel_maxsize (eo_sel (sc_E S0))).
Local Notation nf := (ds_n_features full).
Local Notation P0 := (sound E nf B bl).
Local Notation Pn := (fun m => sound E nf B bl m /\ numeric F (m_loss m)).
Local Notation Pf := (within E maxsize).

Lemma sr_cycles_numeric cur d st nn : forall idx pop s best ev pop' s' best' k, Forall (fun m => numeric F (m_loss m)) pop ->
  (forall c m, stored best c m -> numeric F (m_loss m)) -> sr_cycles E idx nn pop s best d bl cur st ev = Ok (pop', s', best', k) ->
  forall c m, stored best' c m -> numeric F (m_loss m).
Proof.
  induction idx as [|i idx IH]; intros pop s best ev pop' s' best' k Hp Hb Hs; cbn in Hs; [injection Hs as _ _ <- _; auto|].
  apply bind_ok in Hs as ([[p1 s1] k1] & H1 & Hs). apply bind_ok in Hs as (b1 & Hu & Hs). unfold reg_evol_cycle in H1.
  apply evol_steps_numeric in H1; auto. eapply IH; [| |exact Hs]; auto. eapply (update_hof_all S0 (fun m => numeric F (m_loss m))); eauto.
Qed.
Lemma s_r_cycle_numeric cur d pop s st pop' s' best k : Forall (fun m => numeric F (m_loss m)) pop ->
  s_r_cycle E pop s d bl cur st = Ok (pop', s', best, k) -> forall c m, stored best c m -> numeric F (m_loss m).
Proof.
  unfold s_r_cycle. intros Hp Hs. apply bind_ok in Hs as (b & Hb & Hs). eapply sr_cycles_numeric; [exact Hp| |exact Hs].
  eapply (update_hof_all S0 (fun m => numeric F (m_loss m))); [|exact Hp|exact Hb]. intros c m Hst. unfold stored, hof_new, fill in Hst. apply nth_error_In, repeat_spec in Hst. discriminate.
Qed.
Lemma task_numeric t r : pop_inv S0 full Pn (tk_pop t) -> tk_cur t <= maxsize -> execute_task S0 full bl t = Ok r ->
  pop_inv S0 full Pn (tr_pop r) /\ Forall Pn (ps_pop (tr_pop r)) /\ forall c m, stored (tr_seen r) c m -> Pn m.
Proof.
  intros (L & S1 & R) Hc Hx. assert (S2 : Forall P0 (ps_pop (tk_pop t))) by (eapply Forall_impl; [|exact S1]; cbn; tauto).
  destruct (task_sound S0 full bl B H t r L S2 R Hc Hx) as (L' & S' & R' & Hs').
  apply execute_split in Hx as (d1 & s1 & pop & s & d2 & s2 & gc & k1 & k2 & N1 & N2 & V1 & V2 & Hnb & C1 & C2 & _).
  apply second_half_numeric in C2. assert (S3 : Forall (fun m => numeric F (m_loss m)) (ps_pop (tk_pop t))) by (eapply Forall_impl; [|exact S1]; cbn; tauto).
  pose proof (s_r_cycle_numeric _ _ _ _ _ _ _ _ _ S3 C1) as C1'.
  assert (G : Forall Pn (ps_pop (tr_pop r))) by (rewrite Forall_forall in *; auto). split; [split; [|split]; auto|]. split; auto. intros c m Hst. split; eauto.
Qed.
Lemma inv_numeric :
  (forall st, init_search S0 full bl = Ok st -> st_inv S0 full Pn Pn Pn Pf st)
  /\ (forall nw c1 es c2, co_inv S0 full Pn Pn Pn Pf c1 -> csteps S0 full bl nw c1 es c2 -> co_inv S0 full Pn Pn Pn Pf c2)
  /\ (forall st l st', st_inv S0 full Pn Pn Pn Pf st -> advances S0 full bl st l st' -> st_inv S0 full Pn Pn Pn Pf st').
Proof.
  apply (use_inv S0 full bl B H); auto; try tauto.
  - intros m id p b [S1 T1]. split; [apply sound_copy; auto|exact T1].
  - apply task_numeric.
  - intros m m' ev ev' ok Hw Hp Hr Hv Hs. split; auto. eapply evaluate_numeric; eauto.
Qed.
Lemma use_numeric :
  (forall nw st0 es c, init_search S0 full bl = Ok st0 -> csteps S0 full bl nw (parallel_start S0 st0) es c -> where_ S0 Pn Pn Pn c)
  /\ (forall st0 l st, init_search S0 full bl = Ok st0 -> advances S0 full bl st0 l st -> where_ S0 Pn Pn Pn (mkCoord st 0 [] [])).
Proof. exact (use_where S0 full bl Pn Pn Pn inv_numeric). Qed.
End Use.

(** Every member a search holds has a finite or infinite loss, never NaN, and its cost is that of the loss (infinite for a failed evaluation). *)
Theorem C50_losses : forall (T W : Type) (S0 : search_cfg T W) full bl B threads st0 es c,
  search_ok S0 full B -> init_search S0 full bl = Ok st0 ->
  csteps S0 full bl (n_workers S0 threads) (parallel_start S0 st0) es c ->
  let C := eo_C (sc_E S0) in let ok := priced (ec_F C) (ec_LO C) (ec_parsimony C) (ec_use_baseline C) bl in
  (forall i ps, located c i ps -> Forall ok (ps_pop ps)) /\ ok (ss_best (co_st c))
  /\ (forall ms m, In ms (ss_subs (co_st c)) -> In m ms -> ok m)
  /\ (forall k m, stored (ss_hall (co_st c)) k m -> ok m).
Proof.
  intros T W S0 full bl B th st0 es c H Hi Hc C ok. destruct (proj1 (use_numeric S0 full bl B H) _ _ _ _ Hi Hc) as (U1 & U2 & U3 & _ & U5).
  assert (G : forall m, sound (sc_E S0) (ds_n_features full) B bl m /\ numeric (ec_F C) (m_loss m) -> ok m) by (intros m [[_ _ _ Hm] Hn]; split; auto).
  split; [|split; [|split]].
  - intros i ps Hl. destruct (U1 i ps Hl) as [_ U]. eapply Forall_impl; [|exact U]. cbn. auto.
  - apply G, U2.
  - intros ms m Hms Hm. apply G. eapply U3; eauto.
  - intros k m Hst. apply G. apply (U5 k m Hst).
Qed.
Theorem C50_engine_losses : forall (T W : Type) (S0 : search_cfg T W) full B en0 ns en ks,
  search_ok S0 full B -> engine_new S0 full = Ok en0 -> steps S0 en0 ns = Ok (en, ks) ->
  let C := eo_C (sc_E S0) in let ok := priced (ec_F C) (ec_LO C) (ec_parsimony C) (ec_use_baseline C) (en_bl en0) in
  (forall i ps, nth_error (ss_pops (en_st en)) i = Some (Some ps) -> Forall ok (ps_pop ps)) /\ ok (ss_best (en_st en))
  /\ (forall ms m, In ms (ss_subs (en_st en)) -> In m ms -> ok m)
  /\ (forall k m, stored (ss_hall (en_st en)) k m -> ok m).
Proof.
  intros T W S0 full B en0 ns en ks H Hn Hs. destruct (C37_cycles T W S0 full en0 ns en ks Hn Hs) as (l & Ha & _).
  unfold engine_new in Hn. apply bind_ok in Hn as (bl & _ & Hn). apply bind_ok in Hn as (st & Hi & Hn). injection Hn as <-. cbn [en_st en_bl] in *.
  set (C := eo_C (sc_E S0)) in *. set (ok := priced (ec_F C) (ec_LO C) (ec_parsimony C) (ec_use_baseline C) bl) in *.
  destruct (proj2 (use_numeric S0 full bl B H) _ _ _ Hi Ha) as (U1 & U2 & U3 & _ & U5).
  assert (G : forall m, sound (sc_E S0) (ds_n_features full) B bl m /\ numeric (ec_F C) (m_loss m) -> ok m) by (intros m [[_ _ _ Hm] Hnn]; split; auto).
  split; [|split; [|split]].
  - intros i ps Hl. destruct (U1 i ps) as [_ U]; [left; exact Hl|]. eapply Forall_impl; [|exact U]. cbn. auto.
  - apply G, U2.
  - intros ms m Hms Hm. apply G. eapply U3; eauto.
  - intros k m Hst. apply G. apply (U5 k m Hst).
Qed.

(** ** Binary64 *)
Section Binary.
Variables prec emax : Z.
Local Notation isnan x := (x = S754_nan).

Lemma shr_1_nonneg r : (0 <= shr_m r)%Z -> (0 <= shr_m (shr_1 r))%Z.
Proof. destruct r as [[|[p|p|]|p] r1 r2]; cbn; lia. Qed.
Lemma iter_nonneg p : forall r, (0 <= shr_m r)%Z -> (0 <= shr_m (SpecFloat.iter_pos shr_1 p r))%Z.
Proof. induction p as [p IH|p IH|]; intros r Hr; cbn; auto using shr_1_nonneg. Qed.
Lemma shr_nonneg r e n : (0 <= shr_m r)%Z -> (0 <= shr_m (fst (shr r e n)))%Z.
Proof. intros Hr. destruct n; cbn; auto using iter_nonneg. Qed.
Lemma shr_fexp_nonneg m e l : (0 <= m)%Z -> (0 <= shr_m (fst (shr_fexp prec emax m e l)))%Z.
Proof. intros Hm. unfold shr_fexp. apply shr_nonneg. destruct l as [|[]]; cbn; auto. Qed.
Lemma round_aux_num sx m e l : (0 <= m)%Z -> ~ isnan (binary_round_aux prec emax sx m e l).
Proof.
  intros Hm. unfold binary_round_aux. pose proof (shr_fexp_nonneg m e l Hm) as H1. destruct (shr_fexp prec emax m e l) as [r1 e1]. cbn [fst] in H1.
  assert (H2 : (0 <= round_nearest_even (shr_m r1) (loc_of_shr_record r1))%Z).
  { unfold round_nearest_even. destruct (loc_of_shr_record r1) as [|[]]; try destruct (Z.even _); lia. }
  pose proof (shr_fexp_nonneg _ e1 loc_Exact H2) as H3. destruct (shr_fexp prec emax _ e1 loc_Exact) as [r2 e2]. cbn [fst] in H3.
  destruct (shr_m r2); [discriminate| |lia]. destruct (_ <=? _)%Z; discriminate.
Qed.
Lemma normalize_num m e s : ~ isnan (binary_normalize prec emax m e s).
Proof.
  unfold binary_normalize. destruct m; [discriminate| |]; unfold binary_round; destruct (shl_align _ _ _); apply round_aux_num; lia.
Qed.
Lemma add_num x y : ~ isnan x -> sf_finite y = true -> ~ isnan (SFadd prec emax x y).
Proof.
  destruct x as [s|s| |s m e]; intros Hx Hy; try contradiction; destruct y as [s'|s'| |s' m' e']; try discriminate; cbn; try discriminate.
  - destruct (Bool.eqb s s'); discriminate.
  - apply normalize_num.
Qed.
Lemma mul_num x y : sf_finite x = true -> sf_finite y = true -> ~ isnan (SFmul prec emax x y).
Proof.
  destruct x as [s|s| |s m e]; intros Hx; try discriminate; destruct y as [s'|s'| |s' m' e']; intros Hy; try discriminate; cbn; try discriminate.
  apply round_aux_num. lia.
Qed.
Lemma div_num x y : ~ isnan x -> sf_finite y = true -> sf_is_zero y = false -> ~ isnan (SFdiv prec emax x y).
Proof.
  destruct x as [s|s| |s m e]; intros Hx; try contradiction; destruct y as [s'|s'| |s' m' e']; intros Hy Hz; try discriminate; cbn; try discriminate.
  destruct (SFdiv_core_binary prec emax (Z.pos m) e (Z.pos m') e') as [[q e''] l] eqn:Eq.
  assert (Hq : (0 <= q)%Z).
  { unfold SFdiv_core_binary in Eq. set (m2 := match _ with Z0 => _ | _ => _ end) in Eq. assert (Hm2 : (0 <= m2)%Z).
    { subst m2. destruct (_ - _ - _)%Z; try lia. rewrite Z.shiftl_mul_pow2 by lia. lia. }
    pose proof (Z_div_mod m2 (Z.pos m') ltac:(lia)) as Hd. destruct (Z.div_eucl m2 (Z.pos m')) as [q0 r0]. injection Eq as <- _ _. nia. }
  apply round_aux_num. exact Hq.
Qed.
End Binary.

Lemma sf_num x : num f64ops x <-> x <> S754_nan.
Proof.
  unfold num. split.
  - intros H ->. discriminate.
  - intros Hx. destruct (ol_total _ (sf_order_laws 53 1024) (finf f64ops) (finf f64ops) (ol_inf_num _ (sf_order_laws 53 1024)) (ol_inf_num _ (sf_order_laws 53 1024))) as [|_].
    + rewrite (ol_irr _ (sf_order_laws 53 1024)) in H. discriminate.
    + destruct x as [[]|[]| |[] m e]; try reflexivity; try contradiction; cbn; unfold SFeqb; cbn; rewrite Z.compare_refl, Pos.compare_cont_refl; reflexivity.
Qed.
Lemma finite_not_nan x : ffinite f64ops x = true -> x <> S754_nan.
Proof. intros H ->. discriminate. Qed.

(** In binary64 the cost of such a loss is not NaN: [cent] is the constant 0.01, and the parsimony times the complexity must not overflow. *)
Theorem C50_binary64 : forall (LO : LossOps spec_float) loss complexity parsimony use_baseline bl,
  ffinite f64ops (lo_cent LO) = true -> fltb f64ops (fzero f64ops) (lo_cent LO) = true ->
  ffinite f64ops (fmul f64ops parsimony (lo_of_nat LO complexity)) = true -> numeric f64ops loss ->
  num f64ops (loss_to_cost f64ops LO loss complexity parsimony use_baseline bl).
Proof.
  intros LO loss cx par ub bl Hc Hpos Hp Hl. apply sf_num. unfold loss_to_cost.
  assert (Hnz : forall b, ffinite f64ops b = true -> fgeb f64ops b (lo_cent LO) = true -> sf_is_zero b = false).
  { intros b Hb Hg. destruct b as [s| | |]; cbn in Hb; try discriminate; [|reflexivity]. exfalso. destruct (lo_cent LO) as [|[]| |[] m e]; try discriminate; destruct s; discriminate. }
  assert (Hcz : sf_is_zero (lo_cent LO) = false) by (destruct (lo_cent LO); try reflexivity; discriminate).
  match goal with |- fadd _ (fdiv _ _ ?d) _ <> _ => set (den := d) end.
  assert (Hd : ffinite f64ops den = true /\ sf_is_zero den = false).
  { subst den. destruct ub; auto. destruct bl as [b|]; auto. destruct (ffinite f64ops b) eqn:Eb; cbn [andb]; auto. destruct (fgeb f64ops b (lo_cent LO)) eqn:Eg; auto. }
  apply add_num; [|exact Hp]. apply div_num; try apply Hd. destruct Hl as [Hl| ->]; [apply finite_not_nan; auto|discriminate].
Qed.

(** So the costs of the members a search in binary64 holds are comparable with each other, and sorting by cost is consistent. *)
Theorem C50_comparable : forall (LO : LossOps spec_float) parsimony use_baseline bl a b,
  ffinite f64ops (lo_cent LO) = true -> fltb f64ops (fzero f64ops) (lo_cent LO) = true ->
  (forall m, m = a \/ m = b -> ffinite f64ops (fmul f64ops parsimony (lo_of_nat LO (m_complexity m))) = true) ->
  priced f64ops LO parsimony use_baseline bl a -> priced f64ops LO parsimony use_baseline bl b ->
  num f64ops (m_cost a)
  /\ (fltb f64ops (m_cost a) (m_cost b) = true \/ feqb f64ops (m_cost a) (m_cost b) = true \/ fltb f64ops (m_cost b) (m_cost a) = true).
Proof.
  intros LO par ub bl a b Hc Hp Hm Ha Hb.
  assert (G : forall m, m = a \/ m = b -> priced f64ops LO par ub bl m -> num f64ops (m_cost m)).
  { intros m Hab [Hl [->|[_ ->]]]; [apply C50_binary64; auto|reflexivity]. }
  split; [auto|]. apply (ol_total _ (sf_order_laws 53 1024)); auto.
Qed.

(** The cost a tournament compares is a number if frequencies are not used, or if the factor exp(scaling * frequency) is finite and not 0. *)
Theorem C50_tournament : forall (wexp : spec_float -> spec_float) st o (m : member spec_float),
  sel_maxsize o <= List.length (st_norm st) -> num f64ops (m_cost m) ->
  (use_frequency_in_tournament o = true -> forall f, In f (fzero f64ops :: st_norm st) ->
     let x := wexp (fmul f64ops (adaptive_parsimony_scaling o) f) in ffinite f64ops x = true /\ sf_is_zero x = false) ->
  exists c, adjusted_cost f64ops Some wexp st o m = Ok c /\ num f64ops c.
Proof.
  intros wexp st o m Hl Hm Hx. rewrite adjusted_is_score by exact Hl. eexists. split; [reflexivity|]. unfold score. destruct (use_frequency_in_tournament o); [|exact Hm].
  match goal with |- num _ (fmul _ _ (wexp (fmul _ _ ?f))) => set (fr := f) end. destruct (Hx eq_refl fr) as [H1 H2].
  { subst fr. destruct ((1 <=? m_complexity m) && (m_complexity m <=? sel_maxsize o)) eqn:Eb; [|left; auto]. right. apply nth_In. apply andb_true_iff in Eb as [E1 E2].
    apply Nat.leb_le in E1, E2. lia. }
  apply sf_num. apply sf_num in Hm. destruct (m_cost m) as [s|s| |s mm e] eqn:Ec; [apply mul_num; auto| |contradiction|apply mul_num; auto].
  cbn. destruct (wexp _); try discriminate.
Qed.

(** The cost adjusted for a tournament may be NaN all the same: the adjustment overflows for a size more than 70% of the recent members have (with the default
    scaling of 1040), and a perfect member, of cost 0, then has the adjusted cost 0 * infinity. Such a member can lose a tournament that always takes the best. *)
Definition flat_member (id : nat) (cost : spec_float) : member spec_float :=
  mkMember id None id (mkExpr [Var 0] [] []) (mkPlan [] 0 (SVar 0) 0) 1 cost cost.
Theorem C50_tournament_refuted : forall wexp : spec_float -> spec_float,
  (forall x, fltb f64ops (f64lit 710 0) x = true -> wexp x = finf f64ops) ->
  exists st o r r' perfect other, sel_maxsize o = 2 /\ Forall (fun f => ffinite f64ops f = true) (st_norm st)
  /\ fleb f64ops (fone f64ops) (tournament_selection_p o) = true /\ tournament_selection_n o = 2
  /\ m_complexity perfect = m_complexity other /\ fltb f64ops (m_cost perfect) (m_cost other) = true
  /\ adjusted_cost f64ops Some wexp st o perfect = Ok S754_nan
  /\ best_of_sample f64ops Some wexp 10 r [other; perfect] st o = Ok (other, r').
Proof.
  intros wexp H. exists (mkStats (f64lit 100 0) [f64lit 75 0; f64lit 25 0] [f64lit 3 (-2); f64lit 1 (-2)]), (mkSel 2 (fone f64ops) true (f64lit 1040 0) 2).
  exists (mkRng (fun n => n) (fun _ => fzero f64ops)). eexists. exists (flat_member 0 (fzero f64ops)), (flat_member 1 (fone f64ops)).
  assert (E : wexp (fmul f64ops (f64lit 1040 0) (f64lit 3 (-2))) = finf f64ops) by (apply H; reflexivity).
  split; [reflexivity|]. split; [repeat constructor|]. split; [reflexivity|]. split; [reflexivity|]. split; [reflexivity|]. split; [reflexivity|]. split.
  - unfold adjusted_cost. cbn [flat_member m_cost m_complexity use_frequency_in_tournament adaptive_parsimony_scaling sel_maxsize st_norm Nat.ltb Nat.leb andb Nat.sub index nth_error expect bind].
    rewrite E. reflexivity.
  - unfold best_of_sample, adjusted_cost.
    cbn [flat_member m_cost m_complexity use_frequency_in_tournament adaptive_parsimony_scaling sel_maxsize st_norm Nat.ltb Nat.leb andb Nat.sub index nth_error expect bind mapM
      tournament_selection_n Nat.min List.length sample_indices Nat.eqb orb seq].
    rewrite E. vm_compute. reflexivity.
Qed.

(** *** Case: the search of C48 *)
Example C50_case : search_ok missed_search demo_data 9 /\ exists st0 es c, init_search missed_search demo_data None = Ok st0
  /\ csteps missed_search demo_data None (n_workers missed_search 8) (parallel_start missed_search st0) es c
  /\ m_loss (ss_best (co_st c)) = XF (13 # 4).
Proof. split; [exact missed_ok|]. destruct C48_case as (_ & _ & st0 & es & c & H1 & H2 & _ & H3 & _). exact (ex_intro _ st0 (ex_intro _ es (ex_intro _ c (conj H1 (conj H2 H3))))). Qed.
(** Binary64 with 0.01 and no parsimony: the cost of the loss 2 at complexity 3. *)
Example C50_binary_case : let LO := sf_loss_ops in
  ffinite f64ops (lo_cent LO) = true /\ fltb f64ops (fzero f64ops) (lo_cent LO) = true
  /\ ffinite f64ops (fmul f64ops (f64lit 1 (-10)) (lo_of_nat LO 3)) = true /\ numeric f64ops (f64lit 2 0) /\ numeric f64ops (finf f64ops)
  /\ loss_to_cost f64ops LO (finf f64ops) 3 (f64lit 1 (-10)) true (Some (f64lit 4 0)) = finf f64ops
  /\ loss_to_cost f64ops LO (f64lit 2 0) 3 (f64lit 1 (-10)) true (Some (f64lit 4 0)) = f64lit 515 (-10).
Proof. cbn zeta. repeat split; try (vm_compute; reflexivity); [left; reflexivity|right; reflexivity]. Qed.
Print Assumptions C50_losses.
Print Assumptions C50_engine_losses.
Print Assumptions C50_binary64.
Print Assumptions C50_comparable.
Print Assumptions C50_tournament.
Print Assumptions C50_tournament_refuted.
