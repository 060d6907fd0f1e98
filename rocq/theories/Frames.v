(** What constant optimisation, evaluation and the expression builders leave unchanged, whatever they compute. No assumption on the
    arithmetic, the data, the plans or the caches is made: these hold of every call that returns. *)
From Verif Require Import Base BaseLemmas Node Compile Eval Deriv Rng Registry Complexity Member Dataset Loss Optim ConstOpt PropOptimTotal.

Section Preserve.
Context {St W : Type} (F : FloatOps W) (OO : OptOps W) (obj : objective St W) (P : St -> Prop).
Hypothesis Hf : forall st x st' v, P st -> ob_f obj st x = Ok (st', v) -> P st'.
Hypothesis Hg : forall st x st' v, P st -> ob_fg obj st x = Ok (st', v) -> P st'.
Variable limit : nat.

Lemma budgeted_keeps st x st' v : P (fst st) -> budgeted F obj limit st x = Ok (st', v) -> P (fst st').
Proof.
  destruct st as [s c]. unfold budgeted. cbn [fst]. intros HP. destruct (negb (limit =? 0) && (limit <=? c)).
  - intros [= <- _]. auto.
  - intros H. apply bind_ok in H as ([s1 w] & Hw & H). injection H as <- _. cbn. eauto.
Qed.
Lemma halve_keeps x s : forall k st a last x0 st' a' o xn, P (fst st) ->
  halve F OO (budgeted F obj limit) x s k st a last x0 = Ok (st', a', o, xn) -> P (fst st').
Proof.
  induction k as [|k IH]; intros st a last x0 st' a' o xn HP H; cbn [halve] in H.
  - injection H as <- _ _ _. auto.
  - apply bind_ok in H as (xn1 & Ha & H). apply bind_ok in H as ([st1 ok] & Hp1 & H). apply budgeted_keeps in Hp1; auto.
    destruct (match ok with Some v => ffinite F v | None => false end); [injection H as <- _ _ _; auto|].
    destruct (fleb F (fmul F a (oo_half OO)) (fzero F)); [injection H as <- _ _ _; auto|]. eapply IH; [|exact H]. auto.
Qed.
Lemma armijo_keeps ls x s phi0 dphi0 : forall k first st alpha phi aprev pprev xn st' r, P (fst st) ->
  armijo_loop F OO (budgeted F obj limit) ls x s phi0 dphi0 k first st alpha phi aprev pprev xn = Ok (st', r) -> P (fst st').
Proof.
  induction k as [|k IH]; intros first st alpha phi aprev pprev xn st' r HP H; cbn [armijo_loop] in H; [injection H as <- _; auto|].
  destruct (fleb F phi _); [injection H as <- _; auto|]. cbv zeta in H.
  match type of H with (if ?c then _ else _) = _ => destruct c end; [injection H as <- _; auto|].
  apply bind_ok in H as (xn1 & Hx & H). apply bind_ok in H as ([st1 v] & Hv & H). apply budgeted_keeps in Hv; auto.
  destruct v as [w|]; [|injection H as <- _; auto]. destruct (ffinite F w); cbn [negb] in H; [|injection H as <- _; auto].
  eapply IH; [|exact H]. auto.
Qed.
Lemma linesearch_keeps ls x s alpha0 phi0 dphi0 st st' r : P (fst st) ->
  linesearch F OO (budgeted F obj limit) ls x s alpha0 phi0 dphi0 st = Ok (st', r) -> P (fst st').
Proof.
  intros HP H. unfold linesearch in H. destruct (_ || _); [injection H as <- _; auto|]. cbv zeta in H.
  apply bind_ok in H as ([[[st1 a] ok] x1] & Hh & H). apply halve_keeps in Hh; auto.
  destruct ok as [p|]; [|injection H as <- _; auto]. destruct (ffinite F p); cbn [negb] in H; [|injection H as <- _; auto].
  eapply armijo_keeps; [|exact H]. auto.
Qed.
End Preserve.

Section Preserve2.
Context {St W : Type} (F : FloatOps W) (OO : OptOps W) (obj : objective St W) (P : St -> Prop).
Hypothesis Hf : forall st x st' v, P st -> ob_f obj st x = Ok (st', v) -> P st'.
Hypothesis Hg : forall st x st' v, P st -> ob_fg obj st x = Ok (st', v) -> P st'.

Lemma bfgs_loop_keeps opts ls n : forall k st x g h fx st' r, P (fst st) -> bfgs_loop F OO obj opts ls n k st x g h fx = Ok (st', r) -> P (fst st').
Proof.
  induction k as [|k IH]; intros st x g h fx st' r HP H; cbn [bfgs_loop] in H; cbv zeta in H.
  - injection H as <- <-. auto.
  - destruct (negb (oi_f_calls_limit opts =? 0) && (oi_f_calls_limit opts <=? snd st)); [injection H as <- _; auto|].
    destruct (negb (ffinite F (inf_norm F OO g)) || fleb F (inf_norm F OO g) (oi_g_abstol opts)); [injection H as <- _; auto|].
    apply bind_ok in H as (hg & _ & H). apply bind_ok in H as (d & _ & H). apply bind_ok in H as ([[h1 s] dphi0] & _ & H).
    destruct (negb (ffinite F dphi0) || fgeb F dphi0 (fzero F)); [injection H as <- _; auto|].
    apply bind_ok in H as ([st1 lr] & Hls & H). apply (linesearch_keeps F OO obj P Hf) in Hls; auto.
    destruct lr as [[[alpha phi] xn]|]; [|injection H as <- _; auto].
    apply bind_ok in H as ([s1 v] & Hfg & H). apply Hg in Hfg; auto.
    assert (Hrec : forall x' g' h' fx', bfgs_loop F OO obj opts ls n k (s1, S (snd st1)) x' g' h' fx' = Ok (st', r) -> P (fst st')).
    { intros x' g' h' fx' H'. eapply IH; [|exact H']. auto. }
    destruct v as [[fn gn]|]; [|injection H as <- <-; auto].
    destruct (ffinite F fn); cbn [negb] in H; [|injection H as <- <-; auto].
    apply bind_ok in H as (dx & _ & H). apply bind_ok in H as (dg & _ & H). apply bind_ok in H as (dd & _ & H).
    destruct (negb (ffinite F dd && fgtb F dd (oo_tiny OO))); [eapply Hrec; eauto|].
    destruct (fgtb F dd (fzero F)); [|eapply Hrec; eauto].
    apply bind_ok in H as (u & _ & H). apply bind_ok in H as (du & _ & H). destruct (ffinite F du); [|eapply Hrec; eauto].
    apply bind_ok in H as (hn & _ & H). eapply Hrec; eauto.
Qed.

Lemma newton_loop_keeps opts ls : forall k st x bx bf st' r, P (fst st) -> newton_loop F OO obj opts ls k st x bx bf = Ok (st', r) -> P (fst st').
Proof.
  induction k as [|k IH]; intros st x bx bf st' r HP H; cbn [newton_loop] in H; cbv zeta in H.
  - injection H as <- <-. auto.
  - destruct (negb (oi_f_calls_limit opts =? 0) && (oi_f_calls_limit opts <=? snd st)); [injection H as <- _; auto|].
    apply bind_ok in H as ([s1 v] & Hfg & H). apply Hg in Hfg; auto.
    destruct v as [[fv gv]|]; [|injection H as <- <-; auto].
    apply bind_ok in H as (g & _ & H). destruct (negb (ffinite F fv) || negb (ffinite F g)); [injection H as <- <-; auto|].
    destruct (fleb F (oo_abs OO g) (oi_g_abstol opts)); [injection H as <- <-; auto|].
    apply bind_ok in H as ([s2 v2] & Hfg2 & H). apply Hg in Hfg2; auto.
    destruct v2 as [[fp gp]|]; [|injection H as <- <-; auto]. apply bind_ok in H as (gplus & _ & H).
    apply bind_ok in H as ([s3 v3] & Hfg3 & H). apply Hg in Hfg3; auto.
    destruct v3 as [[fm gm]|]; [|injection H as <- <-; auto]. apply bind_ok in H as (gminus & _ & H).
    destruct (if _ || _ then _ else _) as [s dphi0] in H.
    destruct (negb (ffinite F dphi0) || fgeb F dphi0 (fzero F)); [injection H as <- <-; auto|].
    apply bind_ok in H as ([st1 lr] & Hls & H). apply (linesearch_keeps F OO obj P Hf) in Hls; auto.
    destruct lr as [[[alpha phi] xn]|]; [|injection H as <- <-; auto]. eapply IH; [|exact H]. auto.
Qed.
End Preserve2.

Lemma write_consts_length {T W} (OC : opt_cfg T W) : forall dst src, List.length (fst (write_consts OC dst src)) = List.length dst.
Proof.
  induction dst as [|d dst IH]; intros [|s src]; cbn; auto. destruct (oc_of OC s); [|reflexivity].
  specialize (IH src). destruct (write_consts OC dst src). cbn in *. lia.
Qed.

Section ConstFrame.
Context {T W : Type} (C : eval_cfg T) (OC : opt_cfg T W).

Lemma optimize_from_start_keeps p e d st x st' r n : List.length (cs_consts st) = n ->
  optimize_from_start C OC p e d st x = Ok (st', r) -> List.length (cs_consts st') = n.
Proof.
  intros Hn H. unfold optimize_from_start in H. cbv zeta in H.
  set (P := fun s : cstate T => List.length (cs_consts s) = n).
  assert (Hf : forall s y s' v, P s -> ob_f (const_objective C OC p e d) s y = Ok (s', v) -> P s').
  { intros s y s' v HP E. cbn in E. apply bind_ok in E as (_ & _ & E). pose proof (write_consts_length OC (cs_consts s) y) as L.
    destruct (write_consts OC (cs_consts s) y) as [cs ok]. cbn in L. destruct ok; cbn [negb] in E.
    - apply bind_ok in E as ([ev w] & _ & E). injection E as <- _. unfold P in *. cbn. lia.
    - injection E as <- _. unfold P in *. cbn. lia. }
  assert (Hg : forall s y s' v, P s -> ob_fg (const_objective C OC p e d) s y = Ok (s', v) -> P s').
  { intros s y s' v HP E. cbn in E. apply bind_ok in E as (_ & _ & E). pose proof (write_consts_length OC (cs_consts s) y) as L.
    destruct (write_consts OC (cs_consts s) y) as [cs ok]. cbn in L. destruct ok; cbn [negb] in E.
    - apply bind_ok in E as ([[gc dl] w] & _ & E). injection E as <- _. unfold P in *. cbn. lia.
    - injection E as <- _. unfold P in *. cbn. lia. }
  apply bind_ok in H as ([[st1 k] r1] & H & E). injection E as <- _. destruct (List.length (consts e) =? 1).
  - apply bind_ok in H as (x0 & _ & H). apply (newton_loop_keeps (oc_F OC) (oc_OO OC) _ P Hf Hg) in H; auto.
  - unfold bfgs_minimize in H. cbv zeta in H. apply bind_ok in H as ([s v] & Hfg & H). apply Hg in Hfg; auto.
    destruct v as [[fx g]|]; [|injection H as <- _ _; auto]. destruct (ffinite (oc_F OC) fx); cbn [negb] in H; [|injection H as <- _ _; auto].
    apply (bfgs_loop_keeps (oc_F OC) (oc_OO OC) _ P Hf Hg) in H; auto.
Qed.

Lemma restarts_keeps p e d x0 n : forall k r st b r' st' b', List.length (cs_consts st) = n ->
  restarts C OC k p e d x0 r st b = Ok (r', st', b') -> List.length (cs_consts st') = n.
Proof.
  induction k as [|k IH]; intros r st b r' st' b' Hn H; cbn in H; [injection H as _ <- _; auto|].
  destruct (perturb OC r x0) as [xt r1]. apply bind_ok in H as ([st1 o] & Ho & H).
  eapply IH; [|exact H]. eapply optimize_from_start_keeps; eauto.
Qed.

(** [evaluate] only assigns complexity, loss and cost: the complexity of the expression, and either a finite loss with its cost or infinities. *)
Lemma evaluate_frame m d bl ev m' ev' ok : evaluate C m d bl ev = Ok (m', ev', ok) ->
  exists c l k, m' = set_eval m c l k /\ compute_complexity (ec_umax C) (ec_D C) (ec_size C) (nodes (m_expr m)) = Ok c
    /\ (if ok then ffinite (ec_F C) l = true /\ k = loss_to_cost (ec_F C) (ec_LO C) l c (ec_parsimony C) (ec_use_baseline C) bl
        else l = finf (ec_F C) /\ k = finf (ec_F C)).
Proof.
  unfold evaluate. intros H. cbv zeta in H. apply bind_ok in H as ([[sc yhat] o] & _ & H). apply bind_ok in H as (c & Hc & H).
  destruct o; cbn [negb] in H; [|injection H as <- _ <-; eauto 10].
  apply bind_ok in H as (l & _ & H). destruct (ffinite (ec_F C) l) eqn:El; cbn [negb] in H; injection H as <- _ <-; do 3 eexists; eauto.
Qed.

(** [optimize_constants] only changes the values of the constants and the evaluation fields. *)
Lemma optimize_frame r m d bl ev gc nb r' m' ev' gc' nb' improved evals :
  optimize_constants C OC r m d bl ev gc nb = Ok (r', m', ev', gc', nb', improved, evals) ->
  m_id m' = m_id m /\ m_parent m' = m_parent m /\ m_plan m' = m_plan m /\ nodes (m_expr m') = nodes (m_expr m)
  /\ var_names (m_expr m') = var_names (m_expr m) /\ List.length (consts (m_expr m')) = List.length (consts (m_expr m))
  /\ (if improved then m_birth m' = nb /\ nb' = S nb else m_birth m' = m_birth m /\ nb' = nb).
Proof.
  unfold optimize_constants. destruct (oc_enabled OC); cbn [negb]; [|intros [= _ <- _ _ <- <- _]; auto 10].
  destruct (List.length (consts (m_expr m)) =? 0); [intros [= _ <- _ _ <- <- _]; auto 10|].
  intros H. apply bind_ok in H as ([ev1 b] & _ & H). destruct b as [base|]; [|injection H as _ <- _ _ <- <- _; auto 10].
  cbv zeta in H. apply bind_ok in H as ([st1 o] & H1 & H). apply bind_ok in H as ([[r1 st2] [[bx bf] ne]] & H2 & H).
  eapply optimize_from_start_keeps in H1; [|reflexivity]. eapply restarts_keeps in H2; [|exact H1]. cbn [cs_consts] in H2.
  destruct (fltb (oc_F OC) bf base); [|injection H as _ <- _ _ <- <- _; auto 10].
  apply bind_ok in H as (z & Hz & H). unfold zip_eq in Hz. destruct (Nat.eqb_spec (List.length (cs_consts st2)) (List.length bx)) as [Hl|]; [|discriminate].
  apply bind_ok in H as ([[m1 ev2] ok] & He & H). apply evaluate_frame in He as (c & l & k & -> & _ & _).
  destruct ok; cbn [negb] in H; injection H as _ <- _ _ <- <- _; cbn [set_birth set_eval set_consts with_consts m_id m_parent m_plan m_expr nodes var_names consts m_birth].
  - rewrite map_length. repeat split; try reflexivity. congruence.
  - auto 10.
Qed.

Lemma from_expr_frame id par b e nf m : from_expr C id par b e nf = Ok m ->
  m_id m = id /\ m_parent m = par /\ m_birth m = b /\ m_expr m = e
  /\ compile_plan (ec_hash C) (ec_D C) (nodes e) nf (List.length (consts e)) = Ok (m_plan m).
Proof. unfold from_expr. intros H. apply bind_ok in H as (p & Hp & H). injection H as <-. auto. Qed.
End ConstFrame.
