(** Property C60: the number of evaluations a search reports. *)
From Coq Require Import QArith.
From Verif Require Import Base BaseLemmas Node Tree Compile Eval Deriv Rng Registry Mutation Complexity Member Num Instances PropHof Selection
  Simplify Conditioning Dataset Loss PropLoss Optim PropOptim ConstOpt Frames Evolution PropEvolution Search PropSearch PropIds.
Local Open Scope nat_scope.

(** ** Specification *)
(** The most objective calls one run of the optimiser makes: two over the limit, or what the iteration counts allow if there is no limit. *)
Definition run_budget {T W} (OC : opt_cfg T W) : nat :=
  if oc_f_calls_limit OC =? 0 then 1 + oc_iterations OC * (oo_finite_max (oc_OO OC) + bt_iterations (oc_ls OC) + 3)
  else oc_f_calls_limit OC + 2.
(** Optimising one member: the run from its constants, the restarts, and the evaluation of the result. *)
Definition member_budget {T W} (OC : opt_cfg T W) : nat := if oc_enabled OC then (1 + oc_nrestarts OC) * run_budget OC + 1 else 0.
(** One step of the evolution: a mutation makes up to ten attempts (each of which may be an optimisation) and evaluates its result; a crossover
    evaluates two children. *)
Definition step_budget {T} (E : evo_cfg T) : nat := Nat.max (10 * member_budget (eo_opt E) + 1) 2.
(** The steps of one cycle. *)
Definition steps_per_cycle {T} (E : evo_cfg T) (size : nat) : nat := (size + tournament_selection_n (eo_sel E) - 1) / tournament_selection_n (eo_sel E).
(** One task: its cycles, the optimisation of its members, and their evaluation. *)
Definition task_budget {T} (E : evo_cfg T) (size : nat) : nat :=
  Nat.max (eo_ncycles E) 1 * (steps_per_cycle E size * step_budget E) + size * member_budget (eo_opt E) + size.

(** ** The optimiser *)
Section Calls.
Context {St W : Type} (F : FloatOps W) (OO : OptOps W) (obj : objective St W) (opts : optim_options W) (ls : backtracking W).
Let limit := oi_f_calls_limit opts.

(** From one state to the next: the counter agrees, at most [k] calls more, and none once the limit is reached. *)
Definition spent (k : nat) (a b : St * nat) : Prop :=
  snd a <= snd b <= snd a + k /\ (limit <> 0 -> snd b <= Nat.max (snd a) limit).

Lemma spent_refl k a : spent k a a.
Proof. unfold spent. lia. Qed.
Lemma spent_trans j k a b c : spent j a b -> spent k b c -> spent (j + k) a c.
Proof. unfold spent. intros (A2 & A3) (B2 & B3). split; [lia|]. intros H. specialize (A3 H). specialize (B3 H). lia. Qed.
Lemma spent_mono j k a b : j <= k -> spent j a b -> spent k a b.
Proof. unfold spent. intros. lia. Qed.

Lemma budgeted_spent st x st' v : budgeted F obj limit st x = Ok (st', v) -> spent 1 st st'.
Proof.
  destruct st as [s c]. unfold budgeted. destruct (negb (limit =? 0) && (limit <=? c)) eqn:E.
  - intros [= <- _]. apply spent_refl.
  - intros H. apply bind_ok in H as ([s1 w] & Hw & H). injection H as <- _. unfold spent. cbn.
    split; [lia|]. intros Hl. lia.
Qed.
Lemma halve_spent x s : forall k st a last x0 st' a' o xn,
  halve F OO (budgeted F obj limit) x s k st a last x0 = Ok (st', a', o, xn) -> spent k st st'.
Proof.
  induction k as [|k IH]; intros st a last x0 st' a' o xn H; cbn [halve] in H.
  - injection H as <- _ _ _. apply spent_refl.
  - apply bind_ok in H as (xn1 & Ha & H). apply bind_ok in H as ([st1 ok] & Hp1 & H). apply budgeted_spent in Hp1.
    destruct (match ok with Some v => ffinite F v | None => false end); [injection H as <- _ _ _; eapply spent_mono; [|exact Hp1]; lia|].
    destruct (fleb F (fmul F a (oo_half OO)) (fzero F)); [injection H as <- _ _ _; eapply spent_mono; [|exact Hp1]; lia|].
    apply IH in H. exact (spent_trans 1 k _ _ _ Hp1 H).
Qed.
Lemma armijo_spent x s phi0 dphi0 : forall k first st alpha phi aprev pprev xn st' r,
  armijo_loop F OO (budgeted F obj limit) ls x s phi0 dphi0 k first st alpha phi aprev pprev xn = Ok (st', r) -> spent k st st'.
Proof.
  induction k as [|k IH]; intros first st alpha phi aprev pprev xn st' r H; cbn [armijo_loop] in H; [injection H as <- _; apply spent_refl|].
  destruct (fleb F phi _); [injection H as <- _; apply spent_refl|]. cbv zeta in H.
  match type of H with (if ?c then _ else _) = _ => destruct c end; [injection H as <- _; apply spent_refl|].
  apply bind_ok in H as (xn1 & Hx & H). apply bind_ok in H as ([st1 v] & Hv & H). apply budgeted_spent in Hv.
  assert (Hv1 : spent (S k) st st1) by (eapply spent_mono; [|exact Hv]; lia).
  destruct v as [w|]; [|injection H as <- _; auto]. destruct (ffinite F w); cbn [negb] in H; [|injection H as <- _; auto].
  apply IH in H. exact (spent_trans 1 k _ _ _ Hv H).
Qed.
Lemma linesearch_spent x s alpha0 phi0 dphi0 st st' r :
  linesearch F OO (budgeted F obj limit) ls x s alpha0 phi0 dphi0 st = Ok (st', r) -> spent (oo_finite_max OO + bt_iterations ls) st st'.
Proof.
  intros H. unfold linesearch in H. destruct (_ || _); [injection H as <- _; apply spent_refl|]. cbv zeta in H.
  apply bind_ok in H as ([[[st1 a] ok] x1] & Hh & H). apply halve_spent in Hh.
  assert (Hh1 : spent (oo_finite_max OO + bt_iterations ls) st st1) by (eapply spent_mono; [|exact Hh]; lia).
  destruct ok as [p|]; [|injection H as <- _; auto]. destruct (ffinite F p); cbn [negb] in H; [|injection H as <- _; auto].
  apply armijo_spent in H. exact (spent_trans _ _ _ _ _ Hh H).
Qed.

(** Overall bound of a run: counter agrees, bounded work, overshoot at most [over]. *)
Definition total (k over : nat) (a b : St * nat) (r : option (optim_result W)) : Prop :=
  snd a <= snd b <= snd a + k
  /\ (limit <> 0 -> snd b <= Nat.max (snd a) (limit + over)) /\ (forall x, r = Some x -> or_f_calls x = snd b).

Let per := oo_finite_max OO + bt_iterations ls.

Lemma bfgs_total n : forall k st x g h fx st' r, bfgs_loop F OO obj opts ls n k st x g h fx = Ok (st', r) -> total (k * (per + 1)) 1 st st' r.
Proof.
  induction k as [|k IH]; intros st x g h fx st' r H; cbn [bfgs_loop] in H; cbv zeta in H.
  - injection H as <- <-. unfold total. split; [lia|]. split; [lia|]. intros y [= <-]. reflexivity.
  - assert (Hdone : forall y, Ok (st, Some (mkResult y fx (snd st))) = Ok (st', r) -> total (S k * (per + 1)) 1 st st' r).
    { intros y [= <- <-]. unfold total. split; [lia|]. split; [lia|]. intros z [= <-]. reflexivity. }
    destruct (negb (oi_f_calls_limit opts =? 0) && (oi_f_calls_limit opts <=? snd st)) eqn:Elim; [apply (Hdone x H)|].
    destruct (negb (ffinite F (inf_norm F OO g)) || fleb F (inf_norm F OO g) (oi_g_abstol opts)); [apply (Hdone x H)|].
    apply bind_ok in H as (hg & _ & H). apply bind_ok in H as (d & _ & H). apply bind_ok in H as ([[h1 s] dphi0] & _ & H).
    destruct (negb (ffinite F dphi0) || fgeb F dphi0 (fzero F)); [apply (Hdone x H)|].
    apply bind_ok in H as ([st1 lr] & Hls & H). apply linesearch_spent in Hls. fold per in Hls. destruct Hls as (S2 & S3).
    destruct lr as [[[alpha phi] xn]|].
    2:{ injection H as <- <-. unfold total. split; [lia|]. split; [|discriminate]. intros Hl. specialize (S3 Hl). lia. }
    apply bind_ok in H as ([s1 v] & Hfg & H).
    assert (Hlim : limit <> 0 -> snd st < limit).
    { intros Hl. unfold limit in *. apply andb_false_iff in Elim as [E|E]; [apply negb_false_iff, Nat.eqb_eq in E; lia|apply Nat.leb_gt in E; auto]. }
    assert (Hone : forall r', (forall y, r' = Some y -> or_f_calls y = S (snd st1)) -> total (S k * (per + 1)) 1 st (s1, S (snd st1)) r').
    { intros r' Hr'. unfold total. cbn [fst snd]. split; [lia|]. split; [|auto]. intros Hl. specialize (S3 Hl). specialize (Hlim Hl). lia. }
    assert (Hrec : forall x' g' h' fx', bfgs_loop F OO obj opts ls n k (s1, S (snd st1)) x' g' h' fx' = Ok (st', r) -> total (S k * (per + 1)) 1 st st' r).
    { intros x' g' h' fx' H'. apply IH in H' as (T2 & T3 & T4). cbn [fst snd] in *. unfold total. split; [lia|]. split; [|auto].
      intros Hl. specialize (S3 Hl). specialize (T3 Hl). specialize (Hlim Hl). lia. }
    destruct v as [[fn gn]|]; [|injection H as <- <-; apply Hone; discriminate].
    destruct (ffinite F fn); cbn [negb] in H; [|injection H as <- <-; apply Hone; intros y [= <-]; reflexivity].
    apply bind_ok in H as (dx & _ & H). apply bind_ok in H as (dg & _ & H). apply bind_ok in H as (dd & _ & H).
    destruct (negb (ffinite F dd && fgtb F dd (oo_tiny OO))); [eapply Hrec; eauto|].
    destruct (fgtb F dd (fzero F)); [|eapply Hrec; eauto].
    apply bind_ok in H as (u & _ & H). apply bind_ok in H as (du & _ & H). destruct (ffinite F du); [|eapply Hrec; eauto].
    apply bind_ok in H as (hn & _ & H). eapply Hrec; eauto.
Qed.

Lemma newton_total : forall k st x bx bf st' r, newton_loop F OO obj opts ls k st x bx bf = Ok (st', r) -> total (k * (per + 3)) 2 st st' r.
Proof.
  induction k as [|k IH]; intros st x bx bf st' r H; cbn [newton_loop] in H; cbv zeta in H.
  - injection H as <- <-. unfold total. split; [lia|]. split; [lia|]. intros y [= <-]. reflexivity.
  - destruct (negb (oi_f_calls_limit opts =? 0) && (oi_f_calls_limit opts <=? snd st)) eqn:Elim.
    { injection H as <- <-. unfold total. split; [lia|]. split; [lia|]. intros y [= <-]. reflexivity. }
    assert (Hlim : limit <> 0 -> snd st < limit).
    { intros Hl. unfold limit in *. apply andb_false_iff in Elim as [E|E]; [apply negb_false_iff, Nat.eqb_eq in E; lia|apply Nat.leb_gt in E; auto]. }
    assert (Hpart : forall s0 j r', j <= 3 -> (forall y, r' = Some y -> or_f_calls y = snd st + j) ->
       total (S k * (per + 3)) 2 st (s0, snd st + j) r').
    { intros s0 j r' Hj Hr'. unfold total. cbn [fst snd]. split; [lia|]. split; [|auto]. intros Hl. specialize (Hlim Hl). lia. }
    apply bind_ok in H as ([s1 v] & Hfg & H).
    replace (S (snd st)) with (snd st + 1) in H by lia.
    destruct v as [[fv gv]|]; [|injection H as <- <-; apply Hpart; try lia; discriminate].
    apply bind_ok in H as (g & _ & H). destruct (negb (ffinite F fv) || negb (ffinite F g)); [injection H as <- <-; apply Hpart; try lia; discriminate|].
    destruct (fleb F (oo_abs OO g) (oi_g_abstol opts)); [injection H as <- <-; apply Hpart; try lia; intros y [= <-]; reflexivity|].
    apply bind_ok in H as ([s2 v2] & Hfg2 & H). cbn [fst snd] in *.
    replace (S (snd st + 1)) with (snd st + 2) in H by lia.
    destruct v2 as [[fp gp]|]; [|injection H as <- <-; apply Hpart; try lia; discriminate]. apply bind_ok in H as (gplus & _ & H).
    apply bind_ok in H as ([s3 v3] & Hfg3 & H). cbn [fst snd] in *.
    replace (S (snd st + 2)) with (snd st + 3) in H by lia.
    destruct v3 as [[fm gm]|]; [|injection H as <- <-; apply Hpart; try lia; discriminate]. apply bind_ok in H as (gminus & _ & H).
    destruct (if _ || _ then _ else _) as [s dphi0] in H.
    destruct (negb (ffinite F dphi0) || fgeb F dphi0 (fzero F)); [injection H as <- <-; apply Hpart; try lia; intros y [= <-]; reflexivity|].
    apply bind_ok in H as ([st1 lr] & Hls & H). apply linesearch_spent in Hls. fold per in Hls. destruct Hls as (S2 & S3). cbn [fst snd] in *.
    destruct lr as [[[alpha phi] xn]|].
    + apply IH in H as (T2 & T3 & T4). unfold total. split; [lia|]. split; [|auto].
      intros Hl. specialize (S3 Hl). specialize (T3 Hl). specialize (Hlim Hl). lia.
    + injection H as <- <-. unfold total. split; [lia|]. split; [|discriminate].
      intros Hl. specialize (S3 Hl). specialize (Hlim Hl). lia.
Qed.
End Calls.

Section Opt.
Context {T W : Type} (C : eval_cfg T) (OC : opt_cfg T W).
Lemma run_calls p e d st x st' r : optimize_from_start C OC p e d st x = Ok (st', Some r) -> or_f_calls r <= run_budget OC.
Proof.
  unfold optimize_from_start. intros H. apply bind_ok in H as ([[st1 k] r1] & H & E). injection E as _ ->. destruct (List.length (consts e) =? 1).
  - apply bind_ok in H as (x0 & _ & H). unfold newton_1d_minimize in H. apply newton_total in H as (T2 & T3 & T4). rewrite (T4 r eq_refl). cbn [snd oi_iterations oi_f_calls_limit] in *.
    unfold run_budget. destruct (Nat.eqb_spec (oc_f_calls_limit OC) 0) as [E0|E0]; [lia|]. specialize (T3 E0). lia.
  - unfold bfgs_minimize in H. apply bind_ok in H as ([s v] & _ & H). destruct v as [[fx g]|]; [|discriminate]. destruct (ffinite (oc_F OC) fx); cbn [negb] in H; [|discriminate].
    apply bfgs_total in H as (T2 & T3 & T4). rewrite (T4 r eq_refl). cbn [snd oi_iterations oi_f_calls_limit] in *.
    unfold run_budget. destruct (Nat.eqb_spec (oc_f_calls_limit OC) 0) as [E0|E0]; [nia|]. specialize (T3 E0). lia.
Qed.
Lemma take_better_evals b o k : snd b <= k -> (forall r, o = Some r -> or_f_calls r <= run_budget OC) -> snd (take_better OC b o) <= k + run_budget OC.
Proof.
  destruct b as [[x f] n]. cbn. intros Hn Ho. destruct o as [r|]; [|cbn; lia]. specialize (Ho r eq_refl). destruct (fltb _ _ _); cbn; lia.
Qed.
Lemma restarts_evals p e d x0 : forall n r st b r' st' b' k, snd b <= k -> restarts C OC n p e d x0 r st b = Ok (r', st', b') -> snd b' <= k + n * run_budget OC.
Proof.
  induction n as [|n IH]; intros r st b r' st' b' k Hb H; cbn [restarts] in H; [injection H as _ _ <-; lia|].
  destruct (perturb OC r x0) as [xt r1]. apply bind_ok in H as ([st1 o] & H1 & H).
  apply (IH _ _ _ _ _ _ (k + run_budget OC)) in H; [lia|]. apply take_better_evals; auto. intros y ->. eapply run_calls; eauto.
Qed.
Lemma optimize_evals r m d bl ev gc nb r' m' ev' gc' nb' imp k :
  optimize_constants C OC r m d bl ev gc nb = Ok (r', m', ev', gc', nb', imp, k) -> k <= member_budget OC.
Proof.
  unfold optimize_constants, member_budget. destruct (oc_enabled OC); cbn [negb]; [|intros [= _ _ _ _ _ _ <-]; auto].
  destruct (List.length (consts (m_expr m)) =? 0); [intros [= _ _ _ _ _ _ <-]; lia|]. intros H.
  apply bind_ok in H as ([ev1 b] & _ & H). destruct b as [b|]; [|injection H as _ _ _ _ _ _ <-; lia].
  apply bind_ok in H as ([st1 o] & H1 & H). apply bind_ok in H as ([[r2 st2] [[bx bf] n]] & H2 & H).
  assert (Hn : n <= (1 + oc_nrestarts OC) * run_budget OC).
  { change n with (snd (bx, bf, n)). eapply restarts_evals in H2; [|apply (take_better_evals _ _ 0); [reflexivity|intros y ->; eapply run_calls; eauto]]. cbn [snd] in *. lia. }
  destruct (fltb _ bf b); [|injection H as _ _ _ _ _ _ <-; lia].
  apply bind_ok in H as (z & _ & H). apply bind_ok in H as ([[m1 ev2] ok] & _ & H). destruct (negb ok); injection H as _ _ _ _ _ _ <-; lia.
Qed.
End Opt.

(** ** Steps, cycles, tasks *)
Section Evo.
Context {T : Type} (E : evo_cfg T).
Local Notation mb := (member_budget (eo_opt E)).

Lemma in_place_evals ev (r : mutated T) o g ev' : in_place ev r = Ok (o, g, ev') -> snd (fst o) = 0.
Proof. unfold in_place. intros H. apply bind_ok in H as ([[b e] g1] & _ & H). injection H as <- _ _. reflexivity. Qed.
Lemma apply_evals c g ev m e d bl temp cur o g' ev' : apply E c g ev m e d bl temp cur = Ok (o, g', ev') -> snd (fst o) <= mb.
Proof.
  destruct c; cbn [apply]; cbv zeta; intros H; try (apply in_place_evals in H; rewrite H; lia).
  - apply bind_ok in H as ([e1 b] & _ & H). injection H as <- _ _. cbn. lia.
  - apply bind_ok in H as ([t g1] & _ & H). apply bind_ok in H as ([e1 g2] & _ & H). injection H as <- _ _. cbn. lia.
  - injection H as <- _ _. cbn. lia.
  - apply bind_ok in H as (tmp & _ & H). apply bind_ok in H as ([[[[[[g1 t1] ev1] gc1] nb1] i1] k1] & H1 & H). injection H as <- _ _. cbn. eapply optimize_evals; eauto.
Qed.
Lemma attempts_evals c m d bl temp cur : forall n g ev k o k' g' ev', attempts E n c g ev m d bl temp cur k = Ok (o, k', g', ev') -> k <= k' <= k + n * mb.
Proof.
  induction n as [|n IH]; intros g ev k o k' g' ev' H; cbn [attempts] in H; [injection H as _ <- _ _; lia|].
  apply bind_ok in H as ([[[[[e mu] j] imm] g1] ev1] & H1 & H). apply apply_evals in H1. cbn [fst snd] in H1. cbv zeta in H. destruct (negb mu).
  - apply IH in H. lia.
  - apply bind_ok in H as ([tree b] & _ & H). apply bind_ok in H as (ok & _ & H). destruct ok; [injection H as _ <- _ _; lia|]. apply IH in H. lia.
Qed.
Lemma next_generation_evals s m d bl temp cur st baby acc k s' : next_generation E s m d bl temp cur st = Ok (baby, acc, k, s') -> k <= 10 * mb + 1.
Proof.
  intros H. unfold next_generation in H. cbv zeta in H. apply bind_ok in H as ([c g] & _ & H). apply bind_ok in H as ([[[found evals] g1] ev1] & Ha & H).
  apply attempts_evals in Ha. destruct found as [[tree [|]]|].
  - apply bind_ok in H as (b1 & _ & H). apply bind_ok in H as (b2 & _ & H). apply bind_ok in H as (cx & _ & H). injection H as _ _ <- _. lia.
  - apply bind_ok in H as (b1 & _ & H). apply bind_ok in H as ([[b2 ev2] ok] & _ & H). destruct (_ || _).
    + apply bind_ok in H as (rj & _ & H). injection H as _ _ <- _. lia.
    + apply bind_ok in H as (prob & _ & H). destruct (rng_real g1) as [u g2]. destruct (fltb _ prob u).
      * apply bind_ok in H as (rj & _ & H). injection H as _ _ <- _. lia.
      * injection H as _ _ <- _. lia.
  - apply bind_ok in H as (rj & _ & H). injection H as _ _ <- _. lia.
Qed.
Lemma crossover_evals d bl cur m1 m2 : forall n s b1 b2 acc k s', crossover_loop E n s m1 m2 d bl cur = Ok (b1, b2, acc, k, s') -> k = if acc then 2 else 0.
Proof.
  induction n as [|n IH]; intros s b1 b2 acc k s' H; cbn [crossover_loop] in H; [injection H as _ _ <- <- _; auto|].
  apply bind_ok in H as ([[c1 c2] g] & _ & H). apply bind_ok in H as (ok1 & _ & H). apply bind_ok in H as (ok & _ & H).
  destruct ok; [|apply IH in H; exact H]. cbv zeta in H. apply bind_ok in H as (y1 & _ & H). apply bind_ok in H as (y2 & _ & H).
  apply bind_ok in H as ([[z1 ev1] o1] & _ & H). apply bind_ok in H as ([[z2 ev2] o2] & _ & H). injection H as _ _ <- <- _. auto.
Qed.
Lemma set_index_length {A} (l : list A) i x l' : set_index l i x = Ok l' -> List.length l' = List.length l.
Proof. unfold set_index. destruct (_ <? _); [|discriminate]. intros [= <-]. apply upd_length. Qed.
Lemma evol_step_evals pop s d bl temp cur st pop' s' k : evol_step E pop s d bl temp cur st = Ok (pop', s', k) ->
  List.length pop' = List.length pop /\ k <= step_budget E.
Proof.
  intros H. unfold evol_step in H. unfold step_budget. destruct (rng_real (es_rng s)) as [u g]. destruct (fgtb _ u _).
  - apply bind_ok in H as ([a g1] & _ & H). apply bind_ok in H as ([[[b acc] k1] s1] & Hn & H). apply next_generation_evals in Hn.
    destruct (negb acc && _); [injection H as <- _ <-; split; auto; lia|]. apply bind_ok in H as (p1 & Hr & H). injection H as <- _ <-.
    unfold replace_oldest in Hr. apply bind_ok in Hr as (i & _ & Hr). apply set_index_length in Hr. split; auto; lia.
  - apply bind_ok in H as ([a1 g1] & _ & H). apply bind_ok in H as ([a2 g2] & _ & H). apply bind_ok in H as ([[[[b1 b2] acc] k1] s1] & Hn & H).
    apply crossover_evals in Hn. assert (k1 <= 2) by (destruct acc; lia).
    destruct (negb acc && _); [injection H as <- _ <-; split; auto; lia|]. apply bind_ok in H as (p1 & Hr & H). injection H as <- _ <-.
    unfold replace_two_oldest in Hr. apply bind_ok in Hr as ([i j] & _ & Hr). apply bind_ok in Hr as (p2 & Hp2 & Hr). apply set_index_length in Hp2, Hr. split; [congruence|lia].
Qed.
Lemma evol_steps_evals d bl temp cur st : forall n pop s e pop' s' k, evol_steps E n pop s d bl temp cur st e = Ok (pop', s', k) ->
  List.length pop' = List.length pop /\ e <= k <= e + n * step_budget E.
Proof.
  induction n as [|n IH]; intros pop s e pop' s' k H; cbn [evol_steps] in H; [injection H as <- _ <-; split; auto; lia|].
  apply bind_ok in H as ([[p1 s1] k1] & H1 & H). apply evol_step_evals in H1 as [L1 B1]. apply IH in H as [L B]. split; [congruence|]. cbn [Nat.mul]. lia.
Qed.
Lemma sr_cycles_evals d bl cur st n : 1 <= tournament_selection_n (eo_sel E) -> forall idx pop s best e pop' s' best' k,
  sr_cycles E idx n pop s best d bl cur st e = Ok (pop', s', best', k) ->
  List.length pop' = List.length pop /\ e <= k <= e + List.length idx * (steps_per_cycle E (List.length pop) * step_budget E).
Proof.
  intros Hn. induction idx as [|i idx IH]; intros pop s best e pop' s' best' k H; cbn [sr_cycles] in H; [injection H as <- _ _ <-; split; auto; cbn; lia|].
  apply bind_ok in H as ([[p1 s1] k1] & H1 & H). apply bind_ok in H as (b1 & _ & H). unfold reg_evol_cycle in H1. apply evol_steps_evals in H1 as [L1 B1].
  apply IH in H as [L B]. rewrite L1 in *. split; [congruence|].
  unfold n_evol_cycles in B1. destruct (Nat.eqb_spec (tournament_selection_n (eo_sel E)) 0); [lia|]. fold (steps_per_cycle E (List.length pop)) in B1. cbn [List.length Nat.mul]. lia.
Qed.
Lemma optimize_members_evals d bl : forall ms s gc e ms' s' gc' k, optimize_members E ms s gc d bl e = Ok (ms', s', gc', k) ->
  List.length ms' = List.length ms /\ e <= k <= e + List.length ms * mb.
Proof.
  induction ms as [|m ms IH]; intros s gc e ms' s' gc' k H; cbn in H; [injection H as <- _ _ <-; split; auto; cbn; lia|].
  match type of H with (if ?b then _ else _) = _ => destruct b end.
  - apply bind_ok in H as ([[[[[[g1 m1] ev1] gc1] nb1] imp] k1] & Eo & H). apply bind_ok in H as ([[[ms1 s1] gc2] k2] & E2 & H). injection H as <- _ _ <-.
    apply optimize_evals in Eo. apply IH in E2 as [L2 B2]. cbn [List.length Nat.mul]. split; [congruence|lia].
  - apply bind_ok in H as ([[[ms1 s1] gc2] k2] & E2 & H). injection H as <- _ _ <-. apply IH in E2 as [L2 B2]. cbn [List.length Nat.mul]. split; [congruence|lia].
Qed.
Lemma evaluate_members_length d bl : forall ms ev ms' ev', evaluate_members E ms ev d bl = Ok (ms', ev') -> List.length ms' = List.length ms.
Proof.
  induction ms as [|m ms IH]; intros ev ms' ev' H; cbn in H; [injection H as <- _; auto|].
  apply bind_ok in H as ([[m1 ev1] ok] & E1 & H). apply bind_ok in H as ([ms1 ev2] & E2 & H). injection H as <- _. cbn. f_equal; eauto.
Qed.
Lemma second_half_evals pop s gc full d bl pop' s' gc' k :
  optimize_and_simplify_population E pop s gc full d bl = Ok (pop', s', gc', k) ->
  List.length pop' = List.length pop /\ List.length pop <= k <= List.length pop + List.length pop * mb.
Proof.
  intros H. unfold optimize_and_simplify_population in H. apply bind_ok in H as (p1 & E1 & H). apply bind_ok in H as ([[[p2 s2] gc2] k2] & E2 & H).
  apply bind_ok in H as ([p3 ev3] & E3 & H). injection H as <- _ _ <-. apply evaluate_members_length in E3.
  assert (I1 : List.length p1 = List.length pop) by (destruct (eo_simplify E); [eapply mapM_length; eauto|injection E1 as <-; auto]).
  destruct (oc_enabled (eo_opt E) && _).
  - apply optimize_members_evals in E2 as [L2 B2]. split; [congruence|]. rewrite E3, L2, I1 in *. lia.
  - injection E2 as <- _ _ <-. split; [congruence|]. rewrite E3, I1. lia.
Qed.
End Evo.

Section Task.
Context {T W : Type} (S0 : search_cfg T W).
Hypothesis Hn : 1 <= tournament_selection_n (eo_sel (sc_E S0)).
Lemma execute_evals full bl t r : execute_task S0 full bl t = Ok r ->
  let n := List.length (ps_pop (tk_pop t)) in List.length (ps_pop (tr_pop r)) = n /\ n <= tr_evals r <= task_budget (sc_E S0) n.
Proof.
  intros H n. unfold execute_task in H. apply bind_ok in H as ([d1 ps1] & H1 & H). apply bind_ok in H as ([[[p1 s1] h1] k1] & H2 & H).
  apply bind_ok in H as ([d2 ps2] & H3 & H). apply bind_ok in H as ([[[p2 s2] gc] k2] & H4 & H). apply bind_ok in H as (sub & _ & H).
  injection H as <-. cbn [ps_pop tr_pop tr_evals]. apply phase_ids in H1 as [P1 _]. apply phase_ids in H3 as [P3 _]. cbn [ps_pop] in P3.
  unfold s_r_cycle in H2. apply bind_ok in H2 as (b & _ & H2). apply sr_cycles_evals in H2 as [L2 B2]; [|exact Hn]. rewrite seq_length in B2.
  apply second_half_evals in H4 as [L4 B4]. rewrite P3, P1 in *. subst n. rewrite L4, L2 in *. split; auto. unfold task_budget. lia.
Qed.
Lemma migrate_loop_length {V} (mig : list (member T)) : forall n ms (r : rng V) id b ms' r' id' b',
  migrate_loop n ms mig r id b = Ok (ms', r', id', b') -> List.length ms' = List.length ms.
Proof.
  induction n as [|n IH]; intros ms r id b ms' r' id' b' H; cbn [migrate_loop] in H; [injection H as <- _ _ _; auto|].
  apply bind_ok in H as ([loc r1] & _ & H). apply bind_ok in H as ([k r2] & _ & H). apply bind_ok in H as (src & Hs & H). cbv zeta in H.
  apply bind_ok in H as (ms1 & H1 & H). apply set_index_length in H1. apply IH in H. congruence.
Qed.
Lemma migrate_length ps mig frac ps' : migrate S0 ps mig frac = Ok ps' -> List.length (ps_pop ps') = List.length (ps_pop ps).
Proof.
  unfold migrate. intros H. apply bind_ok in H as ([[[pop g] id] b] & H & E). injection E as <-. cbn. unfold migrate_into in H.
  destruct mig as [|m0 mig]; [injection H as <- _ _ _; auto|].
  destruct (fleb _ _ _); [injection H as <- _ _ _; auto|]. destruct (ps_pop ps) as [|m1 ms]; [injection H as <- _ _ _; auto|].
  cbv zeta in H. destruct (negb _); [injection H as <- _ _ _; auto|]. destruct (sc_poisson S0 _ _) as [n r1].
  destruct (_ =? 0); [injection H as <- _ _ _; auto|]. eapply migrate_loop_length; eauto.
Qed.
Lemma apply_length st r st' : apply_task_result S0 st r = Ok st' -> exists ps, List.length (ps_pop ps) = List.length (ps_pop (tr_pop r))
  /\ ss_pops st' = upd (ss_pops st) (tr_idx r) (Some ps) /\ ss_evals st' = ss_evals st + tr_evals r /\ ss_completed st' = ss_completed st + 1.
Proof.
  unfold apply_task_result. cbv zeta. intros H. apply bind_ok in H as (subs & H1 & H). apply bind_ok in H as (x & H2 & H). apply bind_ok in H as (h1 & H3 & H).
  apply bind_ok in H as ([h2 b] & H4 & H). apply bind_ok in H as (ps1 & H5 & H). apply bind_ok in H as (ps2 & H6 & H). apply bind_ok in H as (pops & H7 & H).
  injection H as <-. cbn. unfold set_index in H7. destruct (_ <? _); [|discriminate]. injection H7 as <-. exists ps2. split; [|auto].
  transitivity (List.length (ps_pop ps1)).
  - destruct (sc_hof_migration S0); [eapply migrate_length; eauto|injection H6 as <-; auto].
  - destruct (sc_migration S0); [eapply migrate_length; eauto|injection H5 as <-; auto].
Qed.

Local Notation size := (sc_population_size S0).
Local Notation npop := (sc_populations S0).
(** All populations have the configured size, and the reported number is within its bounds. *)
Definition counted (st : search_st T) : Prop :=
  (forall ps, In (Some ps) (ss_pops st) -> List.length (ps_pop ps) = size)
  /\ npop * size + ss_completed st * size <= ss_evals st <= npop * size + ss_completed st * task_budget (sc_E S0) size.
Lemma init_counted d bl st : init_search S0 d bl = Ok st -> counted st /\ ss_evals st = npop * size.
Proof.
  intros H. pose proof (init_ids S0 d bl st H) as Hids. unfold init_search in H. apply bind_ok in H as ([pl h] & H1 & H). apply bind_ok in H as (b & _ & H). apply bind_ok in H as (b1 & _ & H).
  apply bind_ok in H as (subs & _ & H). injection H as <-. split; [|reflexivity]. split; [|cbn; lia]. intros ps Hin. apply In_nth_error in Hin as (i & Hi). apply Hids in Hi as [Hi _].
  unfold pids in Hi. rewrite <- (map_length m_id), Hi. apply seq_length.
Qed.
Lemma deliver_counted full bl st t r st' : counted st -> List.length (ps_pop (tk_pop t)) = size -> execute_task S0 full bl t = Ok r -> apply_task_result S0 st r = Ok st' ->
  counted st' /\ ss_evals st + size <= ss_evals st' <= ss_evals st + task_budget (sc_E S0) size.
Proof.
  intros [C1 C2] Ht He Ha. apply execute_evals in He as [L B]. rewrite Ht in *. apply apply_length in Ha as (ps & A1 & A2 & A3 & A4). split; [|rewrite A3; lia]. split.
  - intros p Hp. rewrite A2 in Hp. apply in_upd in Hp as [Hp|Hp]; auto. injection Hp as ->. congruence.
  - rewrite A3, A4. lia.
Qed.
Lemma dispatch_counted st i st' t : counted st -> dispatch S0 st i = Ok (Some (st', t)) -> counted st' /\ List.length (ps_pop (tk_pop t)) = size /\ ss_evals st' = ss_evals st.
Proof.
  intros [C1 C2] H. unfold dispatch in H. apply bind_ok in H as (p & Hp & H). destruct p as [ps|]; [|discriminate]. apply bind_ok in H as (pops & Hs & H). apply bind_ok in H as (cur & _ & H).
  injection H as <- <-. cbn. split; [|split; auto].
  - split; cbn; auto. intros q Hq. unfold set_index in Hs. destruct (_ <? _); [|discriminate]. injection Hs as <-. apply in_upd in Hq as [Hq|Hq]; [auto|discriminate].
  - apply C1. unfold index in Hp. destruct (nth_error (ss_pops st) i) eqn:En; [|discriminate]. cbn in Hp. injection Hp as ->. eapply nth_error_In; eauto.
Qed.
Definition co_counted (c : @coord T) : Prop := counted (co_st c) /\ forall t, In t (co_flight c) -> List.length (ps_pop (tk_pop t)) = size.
Lemma cstep_counted full bl nw c1 e c2 : co_counted c1 -> cstep S0 full bl nw c1 e c2 -> co_counted c2 /\ ss_evals (co_st c1) <= ss_evals (co_st c2).
Proof.
  intros [Hst Hf] Hs. inversion Hs; subst; cbn [co_st co_flight] in *.
  - split; [split; auto|cbn; lia].
  - split; [split; auto|lia].
  - apply dispatch_counted in H0 as (H1 & H2 & H3); auto. split; [|lia]. split; auto. cbn. intros t0 Ht. apply in_app_or in Ht as [Ht|[<-|[]]]; auto.
  - eapply deliver_counted in H1 as [H1 H2]; [|exact Hst| |exact H0]; [|apply Hf, in_or_app; right; left; auto]. split; [|lia]. split; auto.
    cbn. intros t0 Ht. apply Hf. apply in_app_or in Ht as [Ht|Ht]; apply in_or_app; [left|right; right]; auto.
Qed.
Lemma csteps_counted full bl nw c1 es c2 : co_counted c1 -> csteps S0 full bl nw c1 es c2 -> co_counted c2 /\ ss_evals (co_st c1) <= ss_evals (co_st c2).
Proof.
  intros Hc H. revert Hc. induction H as [c|c1 e c2 es c3 H1 _ IH]; intros Hc; [split; auto|]. destruct (cstep_counted _ _ _ _ _ _ Hc H1) as [Hc2 Hl]. destruct (IH Hc2). split; auto. lia.
Qed.
Lemma advances_counted full bl st l st' : counted st -> advances S0 full bl st l st' -> counted st'.
Proof.
  intros Hst H. revert Hst. induction H as [st g|st g i st1 l st2 (st3 & t & r & Hd & He & Ha) _ IH]; intros Hst; [exact Hst|].
  apply IH. apply dispatch_counted in Hd as (H1 & H2 & H3); try exact Hst; try exact Hn. exact (proj1 (deliver_counted _ _ _ _ _ _ H1 H2 He Ha)).
Qed.
End Task.

(** ** C60 *)
(** Optimising the constants of a member reports at most the budget. *)
Theorem C60_optimisation : forall (T W : Type) (C : eval_cfg T) (OC : opt_cfg T W) r m d bl ev gc nb r' m' ev' gc' nb' improved evals,
  optimize_constants C OC r m d bl ev gc nb = Ok (r', m', ev', gc', nb', improved, evals) ->
  evals <= member_budget OC /\ (oc_enabled OC = false \/ consts (m_expr m) = [] -> evals = 0) /\ (improved = true -> 1 <= evals).
Proof.
  intros T W C OC r m d bl ev gc nb r' m' ev' gc' nb' imp k H. split; [eapply optimize_evals; eauto|]. unfold optimize_constants in H. split.
  - intros [E0|E0]; rewrite E0 in H; cbn [negb List.length Nat.eqb] in H; [congruence|]. destruct (oc_enabled OC); cbn [negb] in H; congruence.
  - intros ->. destruct (negb (oc_enabled OC)); [discriminate|]. destruct (List.length (consts (m_expr m)) =? 0); [discriminate|].
    apply bind_ok in H as ([ev1 b] & _ & H). destruct b as [b|]; [|discriminate].
    apply bind_ok in H as ([st1 o] & _ & H). apply bind_ok in H as ([[r2 st2] [[bx bf] n]] & _ & H). destruct (fltb _ bf b); [|discriminate].
    apply bind_ok in H as (z & _ & H). apply bind_ok in H as ([[m1 ev2] ok] & _ & H). destruct (negb ok); [discriminate|]. injection H as _ _ _ _ _ <-. lia.
Qed.

(** A mutation reports nothing when its child could not be evaluated or no attempt gave a candidate; a crossover reports two evaluations or none. *)
Theorem C60_mutation : forall (T : Type) (E : evo_cfg T) s m d bl temperature cur st baby accepted k s',
  next_generation E s m d bl temperature cur st = Ok (baby, accepted, k, s') ->
  let F := ec_F (eo_C E) in
  k <= 10 * member_budget (eo_opt E) + 1
  /\ exists c g found tried g' ev,
       sample_mutation F (es_rng s) (condition_mutation_weights F (eo_of_nat E) (eo_weights E) (m_expr m) (m_complexity m)
         (mkCond (eo_simplify E) (oc_enabled (eo_opt E)) (eo_opt_prob E)) cur (ds_n_features d)) = Ok (c, g)
       /\ attempts E 10 c g (es_ev s) m d bl temperature cur 0 = Ok (found, tried, g', ev) /\ tried <= 10 * member_budget (eo_opt E)
       /\ (forall tree fresh child ev' ok, found = Some (tree, false) ->
             from_expr (eo_C E) (es_id s) (Some (m_id m)) (es_birth s) tree (ds_n_features d) = Ok fresh -> evaluate (eo_C E) fresh d bl ev = Ok (child, ev', ok) ->
             k = if ok && ffinite F (to_w (eo_opt E) (m_cost child) (finf F)) then tried + 1 else 0)
       /\ (found = None \/ (exists tree, found = Some (tree, true)) -> k = 0).
Proof.
  intros T E s m d bl temp cur st baby acc k s' H F. split; [eapply next_generation_evals; eauto|]. unfold next_generation in H. cbv zeta in H.
  apply bind_ok in H as ([c g] & Hc & H). apply bind_ok in H as ([[[found evals] g1] ev1] & Ha & H). exists c, g, found, evals, g1, ev1. split; [exact Hc|]. split; [exact Ha|].
  split; [apply attempts_evals in Ha; lia|]. clear Ha Hc. split.
  - intros tree fresh child ev' ok -> Hf He. rewrite Hf in H. cbn [bind] in H. rewrite He in H. cbn [bind] in H. fold F in H.
    destruct ok; cbn [negb orb andb] in *; [destruct (ffinite F _); cbn [negb] in H|].
    + apply bind_ok in H as (prob & _ & H). destruct (rng_real g1) as [u g2]. destruct (fltb F prob u); [apply bind_ok in H as (rj & _ & H)|]; injection H as _ _ <- _; reflexivity.
    + apply bind_ok in H as (rj & _ & H). injection H as _ _ <- _. reflexivity.
    + apply bind_ok in H as (rj & _ & H). injection H as _ _ <- _. reflexivity.
  - intros [-> |(tree & ->)].
    + apply bind_ok in H as (rj & _ & H). injection H as _ _ <- _. reflexivity.
    + apply bind_ok in H as (b1 & _ & H). apply bind_ok in H as (b2 & _ & H). apply bind_ok in H as (cx & _ & H). injection H as _ _ <- _. reflexivity.
Qed.
Theorem C60_crossover : forall (T : Type) (E : evo_cfg T) s m1 m2 d bl cur b1 b2 accepted k s',
  crossover_generation E s m1 m2 d bl cur = Ok (b1, b2, accepted, k, s') -> k = if accepted then 2 else 0.
Proof. intros. eapply crossover_evals; eauto. Qed.

(** A task reports at least one evaluation per member (the last evaluation on all the data) and at most its budget. *)
Theorem C60_task : forall (T W : Type) (S0 : search_cfg T W) full bl t r,
  1 <= tournament_selection_n (eo_sel (sc_E S0)) -> execute_task S0 full bl t = Ok r ->
  List.length (ps_pop (tk_pop t)) <= tr_evals r <= task_budget (sc_E S0) (List.length (ps_pop (tk_pop t))).
Proof. intros T W S0 full bl t r Hn H. apply (execute_evals S0 Hn full bl t r H). Qed.

(** Exactly: what its evolution and its optimisation report (C56: the sum over the steps), and one per member. *)
Theorem C60_task_sum : forall (T W : Type) (S0 : search_cfg T W) full bl t r,
  execute_task S0 full bl t = Ok r ->
  exists d1 s1 d2 pop2 s2 gc evolved s2' seen evolution pop s gc2 optimisation,
    s_r_cycle (sc_E S0) (ps_pop (tk_pop t)) s1 d1 bl (tk_cur t) (tk_stats t) = Ok (evolved, s2, seen, evolution)
    /\ (if eo_simplify (sc_E S0) then mapM (simplify_member (sc_E S0) (ds_n_features full)) evolved else Ok evolved) = Ok pop2
    /\ (if oc_enabled (eo_opt (sc_E S0)) && fgtb (ec_F (eo_C (sc_E S0))) (eo_opt_prob (sc_E S0)) (fzero (ec_F (eo_C (sc_E S0))))
        then optimize_members (sc_E S0) pop2 s2' gc d2 bl 0 = Ok (pop, s, gc2, optimisation) else pop = pop2 /\ optimisation = 0)
    /\ List.length (ps_pop (tr_pop r)) = List.length pop
    /\ tr_evals r = evolution + optimisation + List.length (ps_pop (tr_pop r)).
Proof.
  intros T W S0 full bl t r H. unfold execute_task in H. apply bind_ok in H as ([d1 ps1] & H1 & H). apply bind_ok in H as ([[[p1 s1] h1] k1] & H2 & H).
  apply bind_ok in H as ([d2 ps2] & H3 & H). apply bind_ok in H as ([[[p2 s2] gc] k2] & H4 & H). apply bind_ok in H as (sub & _ & H).
  injection H as <-. cbn [ps_pop tr_pop tr_evals]. apply phase_ids in H1 as [P1 _]. apply phase_ids in H3 as [P3 _]. cbn [ps_pop] in P3. rewrite P1 in H2. rewrite P3 in H4.
  unfold optimize_and_simplify_population in H4. apply bind_ok in H4 as (q1 & E1 & H4). apply bind_ok in H4 as ([[[q2 t2] gc2] j2] & E2 & H4).
  apply bind_ok in H4 as ([q3 ev3] & E3 & H4). injection H4 as <- _ _ <-. apply evaluate_members_length in E3.
  exists d1, (ps_st ps1), d2, q1, s1. eexists _, p1, _, h1, k1, q2, t2, gc2, j2. split; [exact H2|]. split; [exact E1|]. split; [|split; [exact E3|lia]].
  destruct (_ && _); [exact E2|]. injection E2 as <- _ _ <-. auto.
Unshelve. all: try exact (ps_st ps2); try exact (ps_gc ps2).
Qed.

(** The whole search, any schedule: the reported number starts at one per initial member, never goes down, grows with every completed task by at least
    one evaluation per member, and by at most the budget of a task. *)
Theorem C60_search : forall (T W : Type) (S0 : search_cfg T W) full bl threads st0 es c,
  1 <= tournament_selection_n (eo_sel (sc_E S0)) ->
  init_search S0 full bl = Ok st0 -> csteps S0 full bl (n_workers S0 threads) (parallel_start S0 st0) es c ->
  let size := sc_population_size S0 in let initial := sc_populations S0 * size in let done := ss_completed (co_st c) in
  ss_evals st0 = initial
  /\ initial + done * size <= ss_evals (co_st c) <= initial + done * task_budget (sc_E S0) size
  /\ forall es' c', csteps S0 full bl (n_workers S0 threads) c es' c' -> ss_evals (co_st c) <= ss_evals (co_st c').
Proof.
  intros T W S0 full bl th st0 es c Hn Hi Hc size initial done. apply (init_counted S0 Hn) in Hi as [Hi E0].
  assert (H0 : co_counted S0 (parallel_start S0 st0)) by (split; [exact Hi|intros t []]). destruct (csteps_counted S0 Hn _ _ _ _ _ _ H0 Hc) as [H1 _].
  split; auto. split; [apply H1|]. intros es' c' Hc'. exact (proj2 (csteps_counted S0 Hn _ _ _ _ _ _ H1 Hc')).
Qed.
Theorem C60_engine : forall (T W : Type) (S0 : search_cfg T W) full en0 ns en ks,
  1 <= tournament_selection_n (eo_sel (sc_E S0)) -> engine_new S0 full = Ok en0 -> steps S0 en0 ns = Ok (en, ks) ->
  let size := sc_population_size S0 in let initial := sc_populations S0 * size in let done := ss_completed (en_st en) in
  initial + done * size <= ss_evals (en_st en) <= initial + done * task_budget (sc_E S0) size.
Proof.
  intros T W S0 full en0 ns en ks Ht Hn Hs. destruct (C37_cycles T W S0 full en0 ns en ks Hn Hs) as (l & Ha & _).
  unfold engine_new in Hn. apply bind_ok in Hn as (bl & _ & Hn). apply bind_ok in Hn as (st & Hi & Hn). injection Hn as <-. cbn [en_st en_bl en_data] in *.
  apply (init_counted S0 Ht) in Hi as [Hi _]. apply (advances_counted S0 Ht _ _ _ _ _ Hi) in Ha. apply Ha.
Qed.

(** ** Cases *)
(** The search of [C38_case] (no optimisation): 4 evaluations at the start, between 12 and 20 after its four tasks. *)
Definition tally (c : @coord xq) : nat * nat := (ss_completed (co_st c), ss_evals (co_st c)).
Example C60_case : 1 <= tournament_selection_n (eo_sel (sc_E (search_demo false))) /\ task_budget (sc_E (search_demo false)) 2 = 4
  /\ exists st0 es c, init_search (search_demo false) demo_data None = Ok st0
  /\ csteps (search_demo false) demo_data None (n_workers (search_demo false) 8) (parallel_start (search_demo false) st0) es c
  /\ tally c = (4, 17).
Proof. split; [cbn; lia|]. split; [reflexivity|]. apply (after_inv tally (search_demo false) demo_data out_of_order). vm_compute. reflexivity. Qed.
(** With every loss infinite the child is evaluated, and the evaluation is not reported. *)
Definition evo_a : member xq := match evo_member 0 0 demo_expr with Ok a => a | _ => mkMember 0 None 0 demo_expr (mkPlan [] 0 (SVar 0) 0%N) 0 (XF 0) (XF 0) end.
Definition hopeless : dataset xq := mkData (mkMat [XF 1; XF 2; XF 3] 1 3) [finf xqops; XF 4; XF 7] 1 3 None (XF 0).
Theorem C60_failures_uncounted_refuted : exists (E : evo_cfg xq) s m d c g tree tried g' ev fresh child ev' baby s',
  sample_mutation (ec_F (eo_C E)) (es_rng s) (condition_mutation_weights (ec_F (eo_C E)) (eo_of_nat E) (eo_weights E) (m_expr m) (m_complexity m)
     (mkCond (eo_simplify E) (oc_enabled (eo_opt E)) (eo_opt_prob E)) 9 (ds_n_features d)) = Ok (c, g)
  /\ attempts E 10 c g (es_ev s) m d None (XF 1) 9 0 = Ok (Some (tree, false), tried, g', ev)
  /\ from_expr (eo_C E) (es_id s) (Some (m_id m)) (es_birth s) tree (ds_n_features d) = Ok fresh
  /\ evaluate (eo_C E) fresh d None ev = Ok (child, ev', false)
  /\ next_generation E s m d None (XF 1) 9 evo_stats = Ok (baby, false, 0, s').
Proof.
  exists (evo_demo true (XF 0)), evo_start, evo_a, hopeless. do 11 eexists. split; [vm_compute; reflexivity|]. split; [vm_compute; reflexivity|]. split; [vm_compute; reflexivity|].
  split; vm_compute; reflexivity.
Qed.

Print Assumptions C60_optimisation.
Print Assumptions C60_mutation.
Print Assumptions C60_crossover.
Print Assumptions C60_task.
Print Assumptions C60_task_sum.
Print Assumptions C60_search.
Print Assumptions C60_engine.
Print Assumptions C60_failures_uncounted_refuted.
