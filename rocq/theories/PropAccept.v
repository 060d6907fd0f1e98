(** Properties C55 and C56: which mutated children are accepted, and how much work a cycle and an iteration do. *)
From Coq Require Import QArith Reals Lra.
From Verif Require Import Base BaseLemmas Node Compile Eval Deriv Rng Registry Mutation Complexity Num Member PropHof Selection PropStats
  Simplify Conditioning Dataset Loss PropLoss Optim PropOptim ConstOpt Evolution Frames PropEvolution RealOps.
Local Open Scope R_scope.

(** ** Specification *)

(** The larger of two numbers; a NaN loses. *)
Definition larger {T} (F : FloatOps T) (a b : T) : T := if negb (feqb F a a) then b else if negb (feqb F b b) then a else if fltb F a b then b else a.
(** How common members of this size are: the normalised count, at least [eps], and [eps] for a size without a count. *)
Definition commonness {T} (F : FloatOps T) (eps : T) (maxsize : nat) (norm : list T) (size : nat) : T :=
  match size with
  | 0%nat => eps
  | S k => if Nat.leb (S k) maxsize then match nth_error norm k with Some p => larger F p eps | None => eps end else eps
  end.
(** The probability of acceptance in the arithmetic of the code, and over the real numbers. *)
Definition code_probability {T} (F : FloatOps T) (exp : T -> T) (annealing use_frequency : bool) (temperature alpha old_cost new_cost old_common new_common : T) : T :=
  let p := if annealing then fmul F (fone F) (exp (fdiv F (fneg F (fsub F new_cost old_cost)) (fmul F temperature alpha))) else fone F in
  if use_frequency then fmul F p (fdiv F old_common new_common) else p.
Definition accept_probability (annealing use_frequency : bool) (temperature alpha old_cost new_cost old_common new_common : R) : R :=
  (if annealing then exp (- (new_cost - old_cost) / (temperature * alpha)) else 1) * (if use_frequency then old_common / new_common else 1).

(** [iterates f n a b]: [b] is [a] after [n] steps. *)
Inductive iterates {A} (f : A -> A -> Prop) : nat -> A -> A -> Prop :=
| It0 a : iterates f 0 a a
| ItS n a b c : f a b -> iterates f n b c -> iterates f (S n) a c.

(** ** C55 *)
Lemma freq_commonness {T} (F : FloatOps T) eps st size maxsize : (if ((0 <? size) && (size <=? maxsize))%nat then freq F eps st size else Ok eps) = Ok (commonness F eps maxsize (st_norm st) size).
Proof.
  unfold commonness. destruct size as [|k]; [reflexivity|]. change ((0 <? S k)%nat) with true. cbn [andb]. destruct (Nat.leb (S k) maxsize); [|reflexivity].
  unfold freq. cbn [Nat.eqb orb]. destruct (Nat.ltb_spec (List.length (st_norm st)) (S k)) as [Hl|Hl].
  - rewrite (proj2 (nth_error_None _ _)); [reflexivity|lia].
  - destruct (nth_error (st_norm st) k) as [p|] eqn:E; [|apply nth_error_None in E; lia]. unfold index. replace (S k - 1)%nat with k by lia. rewrite E. reflexivity.
Qed.

(** When the attempts have produced a candidate, it becomes a member exactly if it can be evaluated, its cost is finite and the probability is not below
    the random number; otherwise the result is a copy of the parent. *)
Theorem C55_acceptance : forall (T : Type) (E : evo_cfg T) (s : evo_st T) (m : member T) (d : dataset T) bl temperature cur (st : stats T) c g tree evals g' ev child ev' ok fresh u g'',
  let F := ec_F (eo_C E) in
  (forall x, oc_to (eo_opt E) x = Some x) ->
  sample_mutation F (es_rng s) (condition_mutation_weights F (eo_of_nat E) (eo_weights E) (m_expr m) (m_complexity m)
      (mkCond (eo_simplify E) (oc_enabled (eo_opt E)) (eo_opt_prob E)) cur (ds_n_features d)) = Ok (c, g) ->
  attempts E 10 c g (es_ev s) m d bl temperature cur 0 = Ok (Some (tree, false), evals, g', ev) ->
  from_expr (eo_C E) (es_id s) (Some (m_id m)) (es_birth s) tree (ds_n_features d) = Ok fresh ->
  evaluate (eo_C E) fresh d bl ev = Ok (child, ev', ok) ->
  rng_real g' = (u, g'') ->
  forall baby accepted n s', next_generation E s m d bl temperature cur st = Ok (baby, accepted, n, s') ->
  let common := commonness F (eo_eps E) (sel_maxsize (eo_sel E)) (st_norm st) in
  let p := code_probability F (eo_exp E) (eo_annealing E) (eo_use_frequency E) temperature (eo_alpha E) (m_cost m) (m_cost child)
             (common (m_complexity m)) (common (m_complexity child)) in
  (accepted = true <-> ok = true /\ ffinite F (m_cost child) = true /\ fltb F p u = false) /\ if accepted then baby = child else same_content m baby.
Proof.
  intros T E s m d bl temp cur st c g tree evals g' ev child ev' ok fresh u g'' F Hto Hs Ha Hf Hev Hu baby acc n s' Hn common p. unfold F in *.
  unfold next_generation in Hn. cbv zeta in Hn. rewrite Hs in Hn. cbn [bind] in Hn. rewrite Ha in Hn. cbn [bind] in Hn. rewrite Hf in Hn. cbn [bind] in Hn.
  rewrite Hev in Hn. cbn [bind] in Hn. unfold to_w in Hn. rewrite !Hto in Hn.
  assert (Hcopy : forall id b r, copy_parent E id b m (ds_n_features d) = Ok r -> same_content m r).
  { intros id b r Hr. unfold copy_parent in Hr. apply bind_ok in Hr as (x & Hx & Hr). injection Hr as <-. apply from_expr_frame in Hx as (_ & _ & _ & Hx & _). unfold same_content. cbn. auto. }
  destruct (negb ok || negb (ffinite (ec_F (eo_C E)) (m_cost child))) eqn:Eok.
  { apply bind_ok in Hn as (r & Hr & Hn). injection Hn as <- <- _ _. split; [|eauto]. split; [discriminate|]. intros (-> & Hfin & _). rewrite Hfin in Eok. discriminate. }
  apply orb_false_iff in Eok as [Eo Ef]. apply negb_false_iff in Eo, Ef. rewrite Eo, Ef.
  assert (Hacc : acceptance E st temp (m_cost m) (m_cost child) (m_complexity m) (m_complexity child) = Ok p).
  { unfold acceptance, size_freq. rewrite !freq_commonness. unfold p, code_probability, common. destruct (eo_annealing E), (eo_use_frequency E); reflexivity. }
  rewrite Hacc in Hn. cbn [bind] in Hn. rewrite Hu in Hn. destruct (fltb _ p u) eqn:El.
  - apply bind_ok in Hn as (r & Hr & Hn). injection Hn as <- <- _ _. split; [|eauto]. split; [discriminate|]. intros (_ & _ & [=]).
  - injection Hn as <- <- _ _. split; [|reflexivity]. tauto.
Qed.
(** Over the reals the test is [u <= p] with the probability below. *)
Theorem C55_real : forall annealing use_frequency temperature alpha old_cost new_cost old_common new_common u,
  fltb rops (code_probability rops exp annealing use_frequency temperature alpha old_cost new_cost old_common new_common) u = false
  <-> u <= accept_probability annealing use_frequency temperature alpha old_cost new_cost old_common new_common.
Proof.
  intros an uf t alpha oc nc o n u. cbn [fltb rops]. rewrite rltb_false.
  assert (E : code_probability rops exp an uf t alpha oc nc o n = accept_probability an uf t alpha oc nc o n) by (unfold code_probability, accept_probability; destruct an, uf; cbn; ring).
  now rewrite E.
Qed.

(** No candidate within ten attempts: the parent is copied. A simplification is always accepted and keeps the loss. *)
Theorem C55_without_evaluation : forall (T : Type) (E : evo_cfg T) (s : evo_st T) (m : member T) (d : dataset T) bl temperature cur (st : stats T) c g found evals g' ev baby accepted n s',
  sample_mutation (ec_F (eo_C E)) (es_rng s) (condition_mutation_weights (ec_F (eo_C E)) (eo_of_nat E) (eo_weights E) (m_expr m) (m_complexity m)
      (mkCond (eo_simplify E) (oc_enabled (eo_opt E)) (eo_opt_prob E)) cur (ds_n_features d)) = Ok (c, g) ->
  attempts E 10 c g (es_ev s) m d bl temperature cur 0 = Ok (found, evals, g', ev) ->
  next_generation E s m d bl temperature cur st = Ok (baby, accepted, n, s') ->
  (found = None -> accepted = false /\ same_content m baby)
  /\ forall tree, found = Some (tree, true) -> c = Simplify /\ accepted = true /\ m_expr baby = tree /\ m_loss baby = m_loss m.
Proof.
  intros T E s m d bl temp cur st c g found evals g' ev baby acc n s' Hs Ha Hn. unfold next_generation in Hn. cbv zeta in Hn. rewrite Hs in Hn. cbn [bind] in Hn.
  rewrite Ha in Hn. cbn [bind] in Hn. split.
  - intros ->. apply bind_ok in Hn as (r & Hr & Hn). injection Hn as <- <- _ _. split; auto.
    unfold copy_parent in Hr. apply bind_ok in Hr as (x & Hx & Hr). injection Hr as <-. apply from_expr_frame in Hx as (_ & _ & _ & Hx & _). unfold same_content. cbn. auto.
  - intros tree ->. assert (Hc : c = Simplify).
    { clear - Ha. assert (G : forall j ev0 k g evals g' ev, attempts E j c g ev0 m d bl temp cur k = Ok (Some (tree, true), evals, g', ev) -> c = Simplify); [|eauto].
      clear. induction j as [|j IH]; intros ev0 k g evals g' ev Ha; cbn [attempts] in Ha; [discriminate|].
      apply bind_ok in Ha as ([[[[[e mu] k1] imm] g1] ev1] & Hap & Ha). destruct mu; cbn [negb] in Ha; [|eauto].
      apply bind_ok in Ha as ([t x] & _ & Ha). apply bind_ok in Ha as (okk & _ & Ha). destruct okk; [|eauto]. injection Ha as _ -> _ _ _.
      destruct c; auto; exfalso; cbn [apply] in Hap; unfold in_place in Hap; repeat (let a := fresh in apply bind_ok in Hap as (a & _ & Hap); repeat destruct a as [a ?]); discriminate. }
    split; auto. apply bind_ok in Hn as (b1 & Hb1 & Hn). apply bind_ok in Hn as (b2 & Hb2 & Hn). apply bind_ok in Hn as (cx & Hcx & Hn).
    injection Hn as <- <- _ _. pose proof (from_expr_frame _ _ _ _ _ _ _ Hb1) as (I1 & I2 & I3 & I4 & I5).
    unfold rebuild_plan in Hb2. apply bind_ok in Hb2 as (p & Hp & Hb2). injection Hb2 as <-. cbn. auto.
Qed.

(** What the probability does: it is positive, decreases with the new cost and with how common the new size is; a child that is no worse and of a size no
    more common than its parent's is accepted whatever the random number; so is every child when neither option is on. *)
Theorem C55_probability : forall annealing use_frequency t alpha old new oldc newc,
  0 < t -> 0 < alpha -> 0 < oldc -> 0 < newc ->
  let p := accept_probability annealing use_frequency t alpha old new oldc newc in
  0 < p
  /\ (new <= old -> newc <= oldc -> 1 <= p)
  /\ (annealing = false -> use_frequency = false -> p = 1)
  /\ (forall new', new <= new' -> accept_probability annealing use_frequency t alpha old new' oldc newc <= p)
  /\ (forall newc', newc <= newc' -> accept_probability annealing use_frequency t alpha old new oldc newc' <= p)
  /\ (annealing = true -> use_frequency = false -> old < new -> p < 1 /\ forall t', t < t' -> p < accept_probability annealing use_frequency t' alpha old new oldc newc).
Proof.
  intros an uf t alpha old new oldc newc Ht Ha Ho Hn p. assert (Hta : 0 < t * alpha) by nra.
  assert (H1 : 0 < (if an then exp (- (new - old) / (t * alpha)) else 1)) by (destruct an; [apply exp_pos|lra]).
  assert (H2 : 0 < (if uf then oldc / newc else 1)) by (destruct uf; [apply Rdiv_lt_0_compat; auto|lra]).
  assert (Hmono : forall a b, a <= b -> exp (- (b - old) / (t * alpha)) <= exp (- (a - old) / (t * alpha))).
  { intros a b Hab. assert (Hle : - (b - old) / (t * alpha) <= - (a - old) / (t * alpha)) by (apply Rmult_le_compat_r; [left; apply Rinv_0_lt_compat; auto|lra]).
    destruct Hle as [Hl| ->]; [left; apply exp_increasing; auto|right; reflexivity]. }
  split; [apply Rmult_lt_0_compat; auto|]. split; [|split; [|split; [|split]]].
  - intros Hc Hf. assert (1 <= (if an then exp (- (new - old) / (t * alpha)) else 1)).
    { destruct an; [|lra]. specialize (Hmono new old Hc). replace (- (old - old) / (t * alpha)) with 0 in Hmono by (field; lra). rewrite exp_0 in Hmono. exact Hmono. }
    assert (1 <= (if uf then oldc / newc else 1)).
    { destruct uf; [|lra]. apply Rmult_le_reg_r with newc; auto. unfold Rdiv. rewrite Rmult_assoc, Rinv_l by lra. lra. }
    unfold p, accept_probability. nra.
  - intros -> ->. unfold p, accept_probability. ring.
  - intros new' Hle. unfold p, accept_probability. apply Rmult_le_compat_r; [lra|]. destruct an; [auto|lra].
  - intros newc' Hle. unfold p, accept_probability. apply Rmult_le_compat_l; [lra|]. destruct uf; [|lra]. unfold Rdiv. apply Rmult_le_compat_l; [lra|]. apply Rinv_le_contravar; lra.
  - intros -> -> Hlt. unfold p, accept_probability. rewrite Rmult_1_r. split.
    + rewrite <- exp_0. apply exp_increasing. unfold Rdiv. pose proof (Rinv_0_lt_compat _ Hta). nra.
    + intros t' Ht'. rewrite Rmult_1_r. apply exp_increasing. assert (t * alpha < t' * alpha) by nra. assert (/ (t' * alpha) < / (t * alpha)) by (apply Rinv_lt_contravar; nra).
      unfold Rdiv. nra.
Qed.

(** At temperature 0 (the last cycle, with annealing) the quotient is 0/0 or infinite. In arithmetic with infinities and NaN (exact on the finite numbers), and an
    exponential that maps NaN, infinity and minus infinity to NaN, infinity and 0, a child is accepted exactly if its cost is not higher or the random number is not
    positive - however common its size is. *)
Theorem C55_frozen : forall (ex : xq -> xq) use_frequency (alpha old new oldc newc u : Q),
  ex XNaN = XNaN -> ex (XInf false) = XInf false -> ex (XInf true) = XF 0%Q -> (0 < oldc)%Q -> (0 < newc)%Q ->
  fltb xqops (code_probability xqops ex true use_frequency (XF 0%Q) (XF alpha) (XF old) (XF new) (XF oldc) (XF newc)) (XF u) = false <-> (new <= old)%Q \/ (u <= 0)%Q.
Proof.
  intros ex uf alpha old new oldc newc u E1 E2 E3 Ho Hn. unfold code_probability. cbn [xqops fmul fone fdiv fneg fsub fltb xmul xneg xadd xdiv].
  assert (Z0 : Qeq_bool (0 * alpha) 0 = true) by (apply Qeq_bool_iff; ring). rewrite Z0.
  assert (Zn : Qeq_bool newc 0 = false) by (apply not_true_iff_false; intros H; apply Qeq_bool_iff in H; rewrite H in Hn; discriminate (Hn)).
  assert (Hr : (0 < oldc / newc)%Q) by (apply Qlt_shift_div_l; [exact Hn|]; rewrite Qmult_0_l; exact Ho).
  assert (Hlt : forall q, xlt (XF q) (XF u) = false <-> (u <= q)%Q) by (intros q; cbn; rewrite negb_false_iff; apply Qle_bool_iff).
  destruct (Qeq_bool (- (new + - old)) 0) eqn:Z.
  - apply Qeq_bool_iff in Z. rewrite E1. assert (new <= old)%Q by (Lqa.lra). destruct uf; cbn [xmul]; rewrite ?Zn; cbn; split; auto.
  - assert (Hz : ~ (new == old)%Q). { intros Hz. apply not_true_iff_false in Z. apply Z. apply Qeq_bool_iff. rewrite Hz. ring. }
    unfold xsign. destruct (xlt (XF (- (new + - old))) (XF 0)) eqn:Es; cbn in Es.
    + apply negb_true_iff, not_true_iff_false in Es. assert (Hgt : ~ (new <= old)%Q). { intros Hc. apply Es. apply Qle_bool_iff. Lqa.lra. }
      rewrite E3. cbn [xmul]. destruct uf; cbn [xdiv xmul]; rewrite ?Zn; cbn [xmul]; rewrite Hlt; (split; [intros H; right|intros [H|H]; [contradiction|]]); rewrite ?Qmult_0_r, ?Qmult_0_l in *; auto.
    + apply negb_false_iff in Es. apply Qle_bool_iff in Es. assert (new <= old)%Q by Lqa.lra. rewrite E2. cbn. destruct uf; cbn [xdiv xmul]; rewrite ?Zn; cbn; [|split; auto].
      replace (Qeq_bool (oldc / newc) 0) with false; [|symmetry; apply not_true_iff_false; intros Hc; apply Qeq_bool_iff in Hc; rewrite Hc in Hr; discriminate Hr].
      cbn. unfold xsign. cbn. replace (Qle_bool 0 (oldc / newc)) with true by (symmetry; apply Qle_bool_iff; Lqa.lra). cbn. split; auto.
Qed.

(** ** C56 *)
Local Open Scope nat_scope.
(** A step of the evolution of a population: population, counters and evaluations before and after. *)
Definition one_step {T} (E : evo_cfg T) (d : dataset T) bl temperature cur st (a b : list (member T) * evo_st T * nat) : Prop :=
  exists k, evol_step E (fst (fst a)) (snd (fst a)) d bl temperature cur st = Ok (fst (fst b), snd (fst b), k) /\ snd b = snd a + k.
(** A cycle performs ceil(population / tournament size) steps. *)
Theorem C56_cycle : forall (T : Type) (E : evo_cfg T) pop (s : evo_st T) d bl temperature cur st pop' s' evals,
  let n := tournament_selection_n (eo_sel E) in
  1 <= n -> reg_evol_cycle E pop s d bl temperature cur st = Ok (pop', s', evals) ->
  exists k, iterates (one_step E d bl temperature cur st) k (pop, s, 0) (pop', s', evals)
    /\ List.length pop <= k * n /\ (1 <= k -> (k - 1) * n < List.length pop).
Proof.
  intros T E pop s d bl temp cur st pop' s' evals n Hn H. unfold reg_evol_cycle in H. exists ((List.length pop + n - 1) / n).
  split; [|].
  - unfold n_evol_cycles in H. fold n in H. destruct (Nat.eqb_spec n 0); [lia|]. revert H. generalize ((List.length pop + n - 1) / n) as k. generalize 0 as e0. intros e0 k. revert pop s e0.
    induction k as [|k IH]; intros pop s e0 H; cbn [evol_steps] in H; [injection H as <- <- <-; constructor|].
    apply bind_ok in H as ([[p1 s1] k1] & H1 & H). econstructor; [|apply IH; exact H]. exists k1. cbn. auto.
  - pose proof (Nat.div_mod (List.length pop + n - 1) n ltac:(lia)) as Hd. pose proof (Nat.mod_upper_bound (List.length pop + n - 1) n ltac:(lia)) as Hm.
    set (q := (List.length pop + n - 1) / n) in *. split; [nia|]. intros Hq. nia.
Qed.

(** An iteration performs [ncycles_per_iteration] cycles (at least one), the i-th at the temperature 1 - i / (ncycles - 1) if annealing and 1 otherwise; after
    each the members are offered to the iteration's hall of fame. *)
Definition code_temperature {T} (F : FloatOps T) (of_nat : nat -> T) (annealing : bool) (i ncycles : nat) : T :=
  if Nat.leb ncycles 1 then fone F
  else fadd F (fone F) (fmul F (fdiv F (of_nat i) (of_nat (ncycles - 1))) (fsub F (if annealing then fzero F else fone F) (fone F))).
Definition temperature_spec (annealing : bool) (i ncycles : nat) : R := (if annealing then (if Nat.leb ncycles 1 then 1 else 1 - INR i / INR (ncycles - 1)) else 1)%R.
Inductive cycles {T} (E : evo_cfg T) (d : dataset T) (bl : option T) (cur : nat) (st : stats T) (temperature : nat -> T) (total : nat)
  : nat -> list (member T) * evo_st T * hof T * nat -> list (member T) * evo_st T * hof T * nat -> Prop :=
| CycEnd i a : i = total -> cycles E d bl cur st temperature total i a a
| CycNext i pop s h k pop1 s1 h1 k1 b : i < total ->
    reg_evol_cycle E pop s d bl (temperature i) cur st = Ok (pop1, s1, k1) ->
    update_from_members (ec_F (eo_C E)) (ec_umax (eo_C E)) (ec_D (eo_C E)) (ec_size (eo_C E)) (eo_stale E) h pop1 cur = Ok h1 ->
    cycles E d bl cur st temperature total (S i) (pop1, s1, h1, k + k1) b ->
    cycles E d bl cur st temperature total i (pop, s, h, k) b.
Theorem C56_iteration : forall (T : Type) (E : evo_cfg T) pop (s : evo_st T) d bl cur st pop' s' best evals,
  s_r_cycle E pop s d bl cur st = Ok (pop', s', best, evals) ->
  let total := Nat.max (eo_ncycles E) 1 in
  exists h0, update_from_members (ec_F (eo_C E)) (ec_umax (eo_C E)) (ec_D (eo_C E)) (ec_size (eo_C E)) (eo_stale E) (hof_new (sel_maxsize (eo_sel E))) pop cur = Ok h0
    /\ cycles E d bl cur st (fun i => code_temperature (ec_F (eo_C E)) (eo_of_nat E) (eo_annealing E) i total) total 0 (pop, s, h0, 0) (pop', s', best, evals).
Proof.
  intros T E pop s d bl cur st pop' s' best evals H total. unfold s_r_cycle in H. fold total in H. apply bind_ok in H as (h0 & Hh & H). exists h0. split; [exact Hh|]. clear Hh.
  set (temp := fun i => code_temperature (ec_F (eo_C E)) (eo_of_nat E) (eo_annealing E) i total).
  assert (G : forall j i pop s h k, i + j = total -> sr_cycles E (seq i j) total pop s h d bl cur st k = Ok (pop', s', best, evals) ->
    cycles E d bl cur st temp total i (pop, s, h, k) (pop', s', best, evals)).
  { clear H pop s h0. induction j as [|j IH]; intros i pop s h k Hij H; cbn [seq sr_cycles] in H.
    - injection H as <- <- <- <-. apply CycEnd. lia.
    - apply bind_ok in H as ([[p1 s1] k1] & H1 & H). apply bind_ok in H as (h1 & H2 & H).
      eapply CycNext; eauto; [lia|]. apply IH; auto. lia. }
  apply (G total 0); auto.
Qed.
Theorem C56_real_temperature : forall annealing i total, code_temperature rops INR annealing i total = temperature_spec annealing i total.
Proof.
  intros an i total. unfold code_temperature, temperature_spec. cbn [fone fzero fadd fmul fdiv fsub rops]. destruct (Nat.leb total 1), an; auto; unfold Rdiv; ring.
Qed.
(** The temperature falls from 1 to 0. *)
Theorem C56_temperature : forall annealing total, temperature_spec annealing 0 total = 1%R
  /\ (2 <= total -> temperature_spec true (total - 1) total = 0%R)
  /\ (forall i, i < total -> (0 <= temperature_spec annealing i total <= 1)%R)
  /\ (forall i j, i <= j -> j < total -> (temperature_spec annealing j total <= temperature_spec annealing i total)%R).
Proof.
  intros an total. unfold temperature_spec. assert (Hp : forall i, 2 <= total -> i <= total - 1 -> (0 <= INR i / INR (total - 1) <= 1)%R).
  { intros i Ht Hi. assert (0 < INR (total - 1))%R by (apply lt_0_INR; lia). pose proof (pos_INR i). apply le_INR in Hi. split; [apply Rmult_le_pos; [auto|left; apply Rinv_0_lt_compat; auto]|].
    apply Rmult_le_reg_r with (INR (total - 1)); auto. unfold Rdiv. rewrite Rmult_assoc, Rinv_l by lra. lra. }
  split; [|split; [|split]].
  - destruct an, (Nat.leb total 1); auto. cbn. unfold Rdiv. ring.
  - intros Ht. destruct (Nat.leb_spec total 1); [lia|]. assert (0 < INR (total - 1))%R by (apply lt_0_INR; lia). unfold Rdiv. rewrite Rinv_r by lra. ring.
  - intros i Hi. destruct an; [|lra]. destruct (Nat.leb_spec total 1); [lra|]. specialize (Hp i ltac:(lia) ltac:(lia)). lra.
  - intros i j Hij Hj. destruct an; [|lra]. destruct (Nat.leb_spec total 1); [lra|]. assert (0 < INR (total - 1))%R by (apply lt_0_INR; lia). apply le_INR in Hij.
    assert (INR i / INR (total - 1) <= INR j / INR (total - 1))%R by (apply Rmult_le_compat_r; [left; apply Rinv_0_lt_compat; auto|auto]). lra.
Qed.
(** A step creates at most two members; ids and birth stamps advance together. *)
Theorem C56_births : forall (T : Type) (E : evo_cfg T) d bl temperature cur st k a b,
  iterates (one_step E d bl temperature cur st) k a b ->
  exists n, n <= 2 * k /\ es_id (snd (fst b)) = es_id (snd (fst a)) + n /\ es_birth (snd (fst b)) = es_birth (snd (fst a)) + n.
Proof.
  intros T E d bl temp cur st k a b H. induction H as [a|k [[p0 s0] e0] [[p1 s1] e1] c H1 H IH]; [exists 0; repeat split; lia|].
  destruct IH as (n & Hn & I1 & I2). destruct H1 as (j & Hs & _). cbn [fst snd] in *.
  assert (G : exists n, n <= 2 /\ es_id s1 = es_id s0 + n /\ es_birth s1 = es_birth s0 + n).
  { clear - Hs. unfold evol_step in Hs. destruct (rng_real (es_rng s0)) as [u g]. destruct (fgtb _ u _).
    - apply bind_ok in Hs as ([x g1] & _ & Hs). apply bind_ok in Hs as ([[[y acc] k1] s2] & Hn & Hs). exists 1. split; [lia|].
      assert (s1 = s2) as -> by (destruct (negb acc && eo_skip_failures E); [congruence|]; apply bind_ok in Hs as (p2 & _ & Hs); congruence). clear - Hn.
      unfold next_generation in Hn. cbv zeta in Hn. apply bind_ok in Hn as ([c g2] & _ & Hn). apply bind_ok in Hn as ([[[found evals] g3] ev1] & _ & Hn).
      destruct found as [[tree [|]]|].
      + apply bind_ok in Hn as (b1 & _ & Hn). apply bind_ok in Hn as (b2 & _ & Hn). apply bind_ok in Hn as (b3 & _ & Hn). injection Hn as _ _ _ <-. auto.
      + apply bind_ok in Hn as (b1 & _ & Hn). apply bind_ok in Hn as ([[b2 ev2] ok] & _ & Hn). destruct (negb ok || _).
        * apply bind_ok in Hn as (b3 & _ & Hn). injection Hn as _ _ _ <-. auto.
        * apply bind_ok in Hn as (pr & _ & Hn). destruct (rng_real g3) as [v g4]. destruct (fltb _ pr v); [apply bind_ok in Hn as (b3 & _ & Hn)|]; injection Hn as _ _ _ <-; auto.
      + apply bind_ok in Hn as (b3 & _ & Hn). injection Hn as _ _ _ <-. auto.
    - apply bind_ok in Hs as ([x g1] & _ & Hs). apply bind_ok in Hs as ([y g2] & _ & Hs). apply bind_ok in Hs as ([[[[b1 b2] acc] k1] s2] & Hn & Hs).
      assert (s1 = s2) as -> by (destruct (negb acc && eo_skip_failures E); [congruence|]; apply bind_ok in Hs as (p2 & _ & Hs); congruence). clear - Hn.
      assert (G : forall n s, es_id s = es_id s0 -> es_birth s = es_birth s0 -> crossover_loop E n s x y d bl cur = Ok (b1, b2, acc, k1, s2) ->
        exists n0, n0 <= 2 /\ es_id s2 = es_id s0 + n0 /\ es_birth s2 = es_birth s0 + n0).
      { clear Hn. induction n as [|n IH]; intros s I1 I2 H; cbn [crossover_loop] in H; [injection H as _ _ _ _ <-; exists 0; repeat split; lia|].
        apply bind_ok in H as ([[c1 c2] g3] & _ & H). apply bind_ok in H as (ok1 & _ & H). apply bind_ok in H as (ok & _ & H). destruct ok.
        - apply bind_ok in H as (z1 & _ & H). apply bind_ok in H as (z2 & _ & H). apply bind_ok in H as ([[z3 e3] o3] & _ & H). apply bind_ok in H as ([[z4 e4] o4] & _ & H).
          injection H as _ _ _ _ <-. exists 2. cbn. split; [lia|]. split; congruence.
        - apply IH in H; auto. }
      eapply G; [| |exact Hn]; reflexivity. }
  destruct G as (n1 & Hn1 & I3 & I4). exists (n1 + n). split; [lia|]. split; lia.
Qed.

(** ** Cases: x0 + x0 gets a node added; the child costs more. With the exponential replaced by a constant, it is accepted for the constant 5/7 and
    refused for 1/10 (the random number is 4/7). *)
Definition accept_cfg (level : xq) : evo_cfg xq :=
  mkEvo (demo_cfg LMse) (mkOptCfg xqops xq_opt_ops (fun x => Some x) (fun x => Some x) false 2 0 0 (XF 0) default_bt)
    [[]; [(2, 0); (2, 5)]]
    (mkWeights (XF 0) (XF 0) (XF 0) (XF 0) (XF 0) (XF 1) (XF 0) (XF 0) (XF 0) (XF 0) (XF 0) (XF 0))
    false (XF 0) (fun _ _ _ v => v) (mkCfg (Some 0) (Some 5) (Some 7)) true (XF 1) true (fun _ => level) (XF (1 # 1000000))
    (fun n => XF (inject_Z (Z.of_nat n))) (XF 0) true (mkSel 2 (XF 1) false (XF 0) 9) 20 [] 4.
Example C55_case : exists a c g tree evals g' ev child ev' fresh u g'' baby accepted n s',
  evo_member 0 0 demo_expr = Ok a
  /\ sample_mutation xqops (es_rng evo_start) (condition_mutation_weights xqops (eo_of_nat (accept_cfg (XF (5 # 7)))) (eo_weights (accept_cfg (XF (5 # 7)))) (m_expr a) (m_complexity a)
       (mkCond false false (XF 0)) 9 1) = Ok (c, g)
  /\ attempts (accept_cfg (XF (5 # 7))) 10 c g (es_ev evo_start) a demo_data None (XF 1) 9 0 = Ok (Some (tree, false), evals, g', ev)
  /\ from_expr (demo_cfg LMse) 2 (Some 0) 2 tree 1 = Ok fresh
  /\ evaluate (demo_cfg LMse) fresh demo_data None ev = Ok (child, ev', true) /\ rng_real g' = (u, g'')
  /\ next_generation (accept_cfg (XF (5 # 7))) evo_start a demo_data None (XF 1) 9 evo_stats = Ok (baby, accepted, n, s')
  /\ accepted = true /\ baby = child /\ List.length (nodes tree) = 5
  /\ exists baby1 n1 s1, next_generation (accept_cfg (XF (1 # 10))) evo_start a demo_data None (XF 1) 9 evo_stats = Ok (baby1, false, n1, s1) /\ m_expr baby1 = m_expr a.
Proof.
  do 16 eexists. split; [vm_compute; reflexivity|]. split; [vm_compute; reflexivity|]. split; [vm_compute; reflexivity|]. split; [vm_compute; reflexivity|].
  split; [vm_compute; reflexivity|]. split; [vm_compute; reflexivity|]. split; [vm_compute; reflexivity|]. split; [reflexivity|]. split; [vm_compute; reflexivity|]. split; [vm_compute; reflexivity|].
  do 3 eexists. split; vm_compute; reflexivity.
Qed.
(** Five members in tournaments of two make three steps. *)
Example C56_case : match evo_member 0 0 demo_expr with
  | Ok a => exists p s k, reg_evol_cycle (accept_cfg (XF 1)) [a; a; a; a; a] evo_start demo_data None (XF 1) 9 evo_stats = Ok (p, s, k) /\ es_birth s = es_birth evo_start + 3
  | _ => False
  end.
Proof.
  assert (Ha : exists a, evo_member 0 0 demo_expr = Ok a) by (eexists; vm_compute; reflexivity). destruct Ha as (a & Ha). rewrite Ha. vm_compute in Ha. injection Ha as <-.
  do 3 eexists. split; vm_compute; reflexivity.
Qed.

Print Assumptions C55_acceptance.
Print Assumptions C55_real.
Print Assumptions C55_without_evaluation.
Print Assumptions C55_probability.
Print Assumptions C55_frozen.
Print Assumptions C56_cycle.
Print Assumptions C56_births.
Print Assumptions C56_iteration.
Print Assumptions C56_real_temperature.
Print Assumptions C56_temperature.
