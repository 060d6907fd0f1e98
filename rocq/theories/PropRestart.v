(** Property C64: from where the constants are optimised, and which result is kept. *)
From Coq Require Import QArith.
From Verif Require Import Base BaseLemmas Node Tree NodeProofs Compile CompileProofs Eval EvalProofs EvalTop Deriv DerivSpec DerivTop DerivReach PropEval
  Rng Registry Complexity ComplexitySpec ComplexityProofs PropComplexity Num Instances Member Dataset PropDataset Loss PropLoss Optim PropOptim PropOptimTotal ConstOpt PropConstOpt.
Local Open Scope nat_scope.

(** ** Specification *)
(** The optimiser is run from each of these points in turn. *)
Inductive runs {T W} (C : eval_cfg T) (OC : opt_cfg T W) (p : plan) (e : expr T) (d : dataset T)
    : list (list W) -> cstate T -> list (option (optim_result W)) -> cstate T -> Prop :=
  | runs_none st : runs C OC p e d [] st [] st
  | runs_one x xs st o st1 os st2 : optimize_from_start C OC p e d st x = Ok (st1, o) -> runs C OC p e d xs st1 os st2 ->
      runs C OC p e d (x :: xs) st (o :: os) st2.
(** The start of restart [i]: constant [j] is multiplied by 1 + eps / 2, where eps is the next number drawn. *)
Definition near_start {T W} (OC : opt_cfg T W) (r : rng W) (x0 : list W) (i : nat) : list W :=
  map (fun jv => fmul (oc_F OC) (snd jv) (fadd (oc_F OC) (fone (oc_F OC)) (fmul (oc_F OC) (oo_half (oc_OO OC)) (rg_real r (i * List.length x0 + fst jv)))))
      (combine (seq 0 (List.length x0)) x0).
Fixpoint calls_of {W} (os : list (option (optim_result W))) : nat :=
  match os with [] => 0 | Some o :: os => or_f_calls o + calls_of os | None :: os => calls_of os end.

(** ** Proof *)
Section Proofs.
Context {T W : Type} (C : eval_cfg T) (OC : opt_cfg T W) (OL : OrderLaws (oc_F OC)).
Local Notation lt := (fltb (oc_F OC)).

Lemma perturb_near (r0 : rng W) : forall x0 r k n, rg_nat r = rg_nat r0 -> (forall i, rg_real r i = rg_real r0 (k + i)) ->
  exists r', perturb OC r x0 = (map (fun jv => fmul (oc_F OC) (snd jv) (fadd (oc_F OC) (fone (oc_F OC)) (fmul (oc_F OC) (oo_half (oc_OO OC)) (rg_real r0 (k + (fst jv - n))))))
      (combine (seq n (List.length x0)) x0), r')
    /\ rg_nat r' = rg_nat r0 /\ forall i, rg_real r' i = rg_real r0 (k + List.length x0 + i).
Proof.
  induction x0 as [|v x0 IH]; intros r k n Hn Hr; cbn [perturb].
  - exists r. cbn. rewrite Nat.add_0_r. auto.
  - cbn [rng_real]. destruct (IH (mkRng (rg_nat r) (shift (rg_real r))) (S k) (S n)) as (r' & E & E1 & E2); auto.
    { intros i. cbn [rg_real]. unfold shift. rewrite Hr. f_equal. lia. }
    rewrite E. exists r'. split; [|split; auto].
    + cbn [List.length seq combine map fst snd]. rewrite Hr, Nat.sub_diag. do 2 f_equal. apply map_ext_in. intros [j u] Hj. apply in_combine_l, in_seq in Hj. cbn [fst snd].
      do 4 f_equal. lia.
    + intros i. rewrite E2. cbn [List.length]. f_equal. lia.
Qed.

(** A best so far is the least of a list of candidates. *)
Definition least_of (base : W) (cands : list (list W * W)) (best : list W * W) : Prop :=
  In best cands /\ (snd best = base \/ lt (snd best) base = true) /\ forall c, In c cands -> lt (snd c) (snd best) = false.
Definition found (os : list (option (optim_result W))) : list (list W * W) :=
  flat_map (fun o => match o with Some o => [(or_minimizer o, or_minimum o)] | None => [] end) os.

Lemma take_better_least base cands bx bf n o : least_of base cands (bx, bf) ->
  exists bx' bf', take_better OC (bx, bf, n) o = (bx', bf', n + calls_of [o]) /\ least_of base (cands ++ found [o]) (bx', bf').
Proof.
  intros (Hin & Hbs & Hmin). cbn [snd] in Hbs. unfold take_better. destruct o as [o|]; cbn [calls_of found flat_map app].
  - rewrite Nat.add_0_r. destruct (lt (or_minimum o) bf) eqn:E.
    + do 2 eexists. split; [reflexivity|]. split; [apply in_or_app; right; left; reflexivity|]. split.
      { right. cbn [snd]. destruct Hbs as [<-|Hbs]; auto. apply (ol_trans _ OL) with bf; auto. }
      intros c Hc. cbn [snd] in *.
      apply in_app_or in Hc as [Hc|[<-|[]]]; [|apply (ol_irr _ OL)]. specialize (Hmin c Hc). cbn [snd] in Hmin.
      apply not_true_is_false. intros H. apply not_true_iff_false in Hmin. apply Hmin. apply (ol_trans _ OL) with (or_minimum o); auto.
    + do 2 eexists. split; [reflexivity|]. split; [apply in_or_app; auto|]. split; [auto|]. intros c Hc. apply in_app_or in Hc as [Hc|[<-|[]]]; auto.
  - rewrite Nat.add_0_r, app_nil_r. exists bx, bf. split; auto. split; auto.
Qed.

Lemma calls_app a b : calls_of (a ++ b) = calls_of (W := W) a + calls_of b.
Proof. induction a as [|[o|] a IH]; cbn; lia. Qed.

Lemma restarts_runs base p e d x0 (r0 : rng W) : forall k i r st cands bx bf n r' st' best',
  rg_nat r = rg_nat r0 -> (forall j, rg_real r j = rg_real r0 (i * List.length x0 + j)) -> least_of base cands (bx, bf) ->
  restarts C OC k p e d x0 r st (bx, bf, n) = Ok (r', st', best') ->
  exists os bx' bf', runs C OC p e d (map (near_start OC r0 x0) (seq i k)) st os st' /\ best' = (bx', bf', n + calls_of os)
    /\ least_of base (cands ++ found os) (bx', bf') /\ rg_nat r' = rg_nat r0 /\ forall j, rg_real r' j = rg_real r0 ((i + k) * List.length x0 + j).
Proof.
  induction k as [|k IH]; intros i r st cands bx bf n r' st' best' Hn Hr Hb E; cbn [restarts] in E.
  - injection E as <- <- <-. exists [], bx, bf. cbn. rewrite Nat.add_0_r, app_nil_r, Nat.add_0_r. split; [constructor|auto].
  - destruct (perturb_near r0 x0 r (i * List.length x0) 0 Hn Hr) as (r1 & E1 & Hn1 & Hr1). rewrite E1 in E.
    assert (Es : map (fun jv => fmul (oc_F OC) (snd jv) (fadd (oc_F OC) (fone (oc_F OC)) (fmul (oc_F OC) (oo_half (oc_OO OC)) (rg_real r0 (i * List.length x0 + (fst jv - 0))))))
        (combine (seq 0 (List.length x0)) x0) = near_start OC r0 x0 i).
    { unfold near_start. apply map_ext. intros jv. now rewrite Nat.sub_0_r. }
    rewrite Es in E. destruct (optimize_from_start C OC p e d st (near_start OC r0 x0 i)) as [[st1 o]| |] eqn:Eo; cbn [bind] in E; try discriminate.
    destruct (take_better_least base cands bx bf n o Hb) as (bx1 & bf1 & Et & Hb1). rewrite Et in E.
    destruct (IH (S i) r1 st1 _ _ _ _ _ _ _ Hn1 ltac:(intros j; rewrite Hr1; f_equal; cbn; lia) Hb1 E) as (os & bx' & bf' & H1 & H2 & H3 & H4 & H5).
    exists (o :: os), bx', bf'. cbn [seq map]. split; [econstructor; eauto|]. split.
    + rewrite H2. f_equal. cbn [calls_of]. destruct o; lia.
    + rewrite <- app_assoc in H3. assert (Ef : found (o :: os) = found [o] ++ found os) by (unfold found; cbn [flat_map]; rewrite app_nil_r; reflexivity). rewrite Ef. split; [exact H3|]. split; auto. intros j. rewrite H5. f_equal. lia.
Qed.
End Proofs.

(** ** Theorems *)
(** With constant optimisation on and a member that has constants and a loss on the data, the optimiser is run once from the
    current constants and once from each of [oc_nrestarts] points near them; the random stream advances by one number per
    constant and restart. The constants are replaced exactly if some run ended strictly below the current loss, and then by
    the minimiser of a run no other run is below. The evaluations reported are the calls of the runs that returned a result,
    and one for the new constants. *)
Theorem C64_restarts : forall (T W : Type) (C : eval_cfg T) (OC : opt_cfg T W) Seen (r : rng W) m d bl ev gc nb t r' m' ev' gc' nb' improved evals ev1 base,
  OrderLaws (oc_F OC) -> opt_ready C Seen d m ev gc t -> oc_enabled OC = true -> consts (m_expr m) <> [] ->
  loss_only C OC (m_plan m) (m_expr m) d ev = Ok (ev1, Some base) ->
  optimize_constants C OC r m d bl ev gc nb = Ok (r', m', ev', gc', nb', improved, evals) ->
  let x0 := map (fun v => to_w OC v (fzero (oc_F OC))) (consts (m_expr m)) in
  let below o := fltb (oc_F OC) (or_minimum o) base = true in
  exists os st, runs C OC (m_plan m) (m_expr m) d (x0 :: map (near_start OC r x0) (seq 0 (oc_nrestarts OC)))
                  (mkCState (consts (m_expr m)) ev1 gc (fill (ds_n_rows d) (fzero (ec_F C)))) os st
    /\ rg_nat r' = rg_nat r /\ (forall j, rg_real r' j = rg_real r (oc_nrestarts OC * List.length (consts (m_expr m)) + j))
    /\ evals = calls_of os + (if improved then 1 else 0)
    /\ (improved = true <-> exists o, In (Some o) os /\ below o)
    /\ (improved = true -> exists o, In (Some o) os /\ below o
          /\ Forall2 (fun w v => oc_of OC w = Some v) (or_minimizer o) (consts (m_expr m'))
          /\ forall o', In (Some o') os -> fltb (oc_F OC) (or_minimum o') (or_minimum o) = false)
    /\ (improved = false -> consts (m_expr m') = consts (m_expr m)).
Proof.
  intros T W C OC Seen r m d bl ev gc nb t r' m' ev' gc' nb' improved evals ev1 base OL R Hen Hne Hlo E x0 below.
  pose proof R as [[Hd Hn Hok Hf Hp Hev Hgc Hgr Hse Hw Hsz Hl] Hh].
  assert (Hsum : improved = false -> consts (m_expr m') = consts (m_expr m)).
  { destruct (C32_optimize_constants T W C OC Seen r m d bl ev gc nb t R (ol_inf_top _ OL) (ol_irr _ OL)) as (? & ? & ? & ? & ? & ? & ? & E' & _ & _ & _ & _ & _ & _ & _ & K & _).
    rewrite E' in E. injection E as <- <- <- <- <- <- <-. intros Hi. apply (K Hi). }
  unfold optimize_constants in E. rewrite Hen in E. cbn [negb] in E.
  destruct (Nat.eqb_spec (List.length (consts (m_expr m))) 0) as [H0|H0]; [destruct (consts (m_expr m)); [congruence|discriminate]|].
  rewrite Hlo in E. cbn [bind] in E. fold x0 in E. set (e := m_expr m) in *.
  pose proof (losses_available C OC Seen d m ev gc t R) as HG. fold e in HG.
  set (st0 := mkCState (consts e) ev1 gc (fill (ds_n_rows d) (fzero (ec_F C)))) in *.
  assert (Hx0 : List.length x0 = List.length (consts e)) by (unfold x0; apply map_length).
  assert (Hev1 : ev_ready d ev1).
  { assert (Hwe : with_consts e (consts e) = e) by (destruct e; reflexivity).
    destruct (loss_only_spec C OC d e (m_plan m) t Hd Hn Hok Hf Hp Hl (consts e) ev eq_refl Hev) as (ev2 & Hev2 & E1). rewrite Hwe, Hlo in E1. injection E1 as <- _. exact Hev2. }
  assert (Hst0 : cs_inv C d e Seen st0) by (unfold cs_inv; cbn; rewrite fill_length; auto).
  destruct (optimize_from_start_spec C OC d e (m_plan m) t Hd Hn Hok Hf Hp Seen Hl _ HG st0 x0 Hst0 Hx0) as (st1 & o1 & E1 & Hst1 & Ho1). rewrite E1 in E. cbn [bind] in E.
  assert (Hb0 : least_of OC base [(x0, base)] (x0, base)). { split; [now left|]. split; [now left|]. intros c [<-|[]]. apply (ol_irr _ OL). }
  destruct (take_better_least OC OL base [(x0, base)] x0 base 0 o1 Hb0) as (bx1 & bf1 & Et & Hb1).
  assert (Hok1 : best_ok OC e (loss_at C OC d e t) base (take_better OC (x0, base, 0) o1)) by (apply take_better_ok; auto; unfold best_ok; auto).
  destruct (restarts_spec C OC d e (m_plan m) t Hd Hn Hok Hf Hp Seen Hl _ HG base x0 Hx0 (oc_nrestarts OC) r st1 _ Hst1 Hok1) as (r2 & st2 & best2 & Er & Hst2 & Hb2).
  rewrite Er in E. rewrite Et in Er. cbn [bind] in E.
  destruct (restarts_runs C OC OL base (m_plan m) e d x0 r (oc_nrestarts OC) 0 r st1 _ _ _ _ _ _ _ eq_refl ltac:(intros j; reflexivity) Hb1 Er) as (os & bx & bf & Hruns & Eb & Hleast & Hrn & Hrr).
  subst best2. destruct Hb2 as [Hbl Hbf].
  assert (Hmem : forall c, In c (([(x0, base)] ++ found [o1]) ++ found os) -> c = (x0, base) \/ exists o, In (Some o) (o1 :: os) /\ c = (or_minimizer o, or_minimum o)).
  { intros c Hc. rewrite <- app_assoc in Hc. destruct Hc as [<-|Hc]; auto. right. unfold found in Hc. rewrite <- flat_map_app in Hc. apply in_flat_map in Hc as ([o|] & Ho & Hc); [|destruct Hc].
    destruct Hc as [<-|[]]. exists o. auto. }
  assert (Hall : forall o, In (Some o) (o1 :: os) -> In (or_minimizer o, or_minimum o) (([(x0, base)] ++ found [o1]) ++ found os)).
  { intros o Ho. rewrite <- app_assoc. right. unfold found. rewrite <- flat_map_app. apply in_flat_map. exists (Some o). split; [exact Ho|left; reflexivity]. }
  destruct Hleast as (Hin & Hbs & Hmin). cbn [snd] in Hmin, Hbs.
  exists (o1 :: os), st2. split; [econstructor; eauto|].
  assert (Hcalls : calls_of (o1 :: os) = 0 + calls_of [o1] + calls_of os) by (cbn [calls_of]; destruct o1; lia).
  destruct (fltb (oc_F OC) bf base) eqn:Elt.
  - (* some run is below *)
    assert (Hbo : exists o, In (Some o) (o1 :: os) /\ bx = or_minimizer o /\ bf = or_minimum o).
    { destruct (Hmem _ Hin) as [[= -> ->]|(o & Ho & [= -> ->])]; [rewrite (ol_irr _ OL) in Elt; discriminate|eauto]. }
    destruct Hbo as (o & Ho & Ebx & Ebf).
    assert (Hov : value_of OC (loss_at C OC d e t) bx bf).
    { destruct Hbf as [->|[->|Hv]]; auto; [rewrite (ol_irr _ OL) in Elt; discriminate|]. rewrite (ol_inf_top _ OL) in Elt. discriminate. }
    destruct Hst2 as (S1 & S2 & _). rewrite zip_eq_ok in E by congruence. cbn [bind] in E.
    set (cs := map (fun w => match oc_of OC w with Some v => v | None => fzero (ec_F C) end) bx) in *.
    destruct Hov as (vs & Ec & l1 & (Hcpl & El1 & Ef1) & _). pose proof (convert_default C OC bx vs Ec) as Ecs. fold cs in Ecs. rewrite <- Ecs in Hcpl, El1.
    assert (Hcl : List.length cs = List.length (consts e)) by (unfold cs; rewrite map_length; auto).
    destruct (evaluate_spec C (set_consts m cs) d bl (cs_ev st2) t (m_nrows (ds_x d)) (oknown (ec_O C)) Hd (ok_with C e cs t (ds_x d) Hcl Hok) (fits_with e cs t (ds_x d) Hcl Hf) Hn) as (ev2 & _ & Hcase); auto.
    { unfold plan_fresh. cbn. rewrite Hcl. exact Hp. }
    { exists t. exact (ok_with C e cs t (ds_x d) Hcl Hok). }
    cbn [set_consts m_expr] in Hcase. fold e in Hcase. rewrite El1, Ef1 in Hcase.
    destruct Hcase as [[Hno _]|[_ Ee]]; [contradiction|]. rewrite Ee in E. cbn [bind negb] in E. injection E as <- <- <- <- <- <- <-.
    split; [exact Hrn|]. split; [intros j; rewrite Hrr, Hx0; reflexivity|]. split; [cbn [calls_of]; destruct o1; lia|].
    assert (Hbel : below o) by (unfold below; rewrite <- Ebf; exact Elt).
    split; [split; [eauto|auto]|]. split; [|discriminate]. intros _. exists o. split; auto. split; auto. split.
    + cbn [set_birth set_eval m_expr set_consts with_consts consts]. rewrite <- Ebx, Ecs. clear -Ec. revert vs Ec. induction bx as [|w bx IH]; intros vs Ec; cbn in Ec; [injection Ec as <-; constructor|].
      destruct (oc_of OC w) as [v|] eqn:E, (convert OC bx) as [us|] eqn:E2; try discriminate. injection Ec as <-. constructor; auto.
    + intros o' Ho'. rewrite <- Ebf. apply (Hmin _ (Hall o' Ho')).
  - injection E as <- <- <- <- <- <- <-. split; [exact Hrn|]. split; [intros j; rewrite Hrr, Hx0; reflexivity|]. split; [cbn [calls_of]; destruct o1; lia|].
    split; [|split; [discriminate|auto]]. split; [discriminate|]. intros (o & Ho & Hbel). exfalso. unfold below in Hbel.
    specialize (Hmin _ (Hall o Ho)). cbn [snd] in Hmin. destruct Hbs as [->|Hbs]; congruence.
Qed.

(** x0 + c0 from c0 = 2 with one restart, from 2 * (1 + 2 / 2) = 4. *)
Example C64_case : exists p,
  let m := mkMember 7 None 0 (shift_expr (XF 2)) p 3 (XF (9 # 4)) (XF 1) in
  let r := mkRng (fun _ => 0) (fun _ => XF 2) in
  OrderLaws (oc_F (opt_cfg_o 1)) /\ opt_ready opt_cfg_e (fun _ => True) demo_data m (evaluator_new xqops 3) (dctx_new xqops 3) shift_tree
  /\ consts (m_expr m) <> []
  /\ (exists ev1 base, loss_only opt_cfg_e (opt_cfg_o 1) p (shift_expr (XF 2)) demo_data (evaluator_new xqops 3) = Ok (ev1, Some base))
  /\ (exists c, near_start (opt_cfg_o 1) r [XF 2] 0 = [XF c] /\ (c == 4)%Q)
  /\ exists r' m' ev' gc' evals,
       optimize_constants opt_cfg_e (opt_cfg_o 1) r m demo_data None (evaluator_new xqops 3) (dctx_new xqops 3) 5
       = Ok (r', m', ev', gc', 6, true, evals).
Proof.
  eexists. cbn zeta. split; [exact xq_order_laws|]. split; [|split; [discriminate|split; [|split]]].
  - split; [split|apply hash_at_told_apart].
    + split; [|split; [|split; [|split]]]; try reflexivity. intros w [= <-]. reflexivity.
    + cbn. lia.
    + split; [reflexivity|cbn; auto with arith].
    + unfold fits_u16. cbn. unfold u16_max. lia.
    + vm_compute. reflexivity.
    + split; reflexivity.
    + constructor.
    + reflexivity.
    + exact I.
    + constructor; cbn; try (unfold u16_max; lia); try discriminate.
    + cbn. unfold u16_max. lia.
    + apply (make_loss_total xqops xq_loss_ops LMse); [|reflexivity]. split; [|split; [|split; [|split]]]; try reflexivity. intros w [= <-]. reflexivity.
  - do 2 eexists. vm_compute. reflexivity.
  - eexists. split; [vm_compute; reflexivity|reflexivity].
  - do 5 eexists. vm_compute. reflexivity.
Qed.
Print Assumptions C64_restarts.
