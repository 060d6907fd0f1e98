(** Two datasets that look the same to every formula, and the optimisation of constants on them. *)
From Verif Require Import Base BaseLemmas Node Tree NodeProofs Compile CompileProofs Eval EvalProofs EvalTop Deriv DerivSpec DerivProofs DerivTop DerivReach PropEval
  Rng Registry Complexity ComplexitySpec ComplexityProofs PropComplexity Num Instances Member Dataset PropDataset Loss PropLoss Optim PropOptim PropOptimTotal ConstOpt PropConstOpt Simulate.
Local Open Scope nat_scope.

(** ** Specification *)
(** The derivative of the loss with respect to constant [ci]: over the rows, the sum of the derivative of the loss in the prediction ([dl]) times the derivative of
    the prediction in the constant. *)
Definition loss_slope {T} (C : eval_cfg T) (d : dataset T) (e : expr T) (t : tree) (dl : list T) (ci : nat) : T :=
  let F := ec_F C in
  fold_left (fun a q => fadd F a (fmul F (fst q) (snd q)))
    (combine dl (map (grad_comp F (ec_O C) e (ds_x d) false t ci) (seq 0 (ds_n_rows d)))) (fzero F).

(** Two datasets with as many features look the same to the formulas [P]: each formula can be computed on both or on neither; if it can, its loss is the same on
    both, its predictions are finite on both or on neither, and its loss has the same derivatives in the constants. *)
Record same_view {T} (C : eval_cfg T) (P : expr T -> Prop) (d d' : dataset T) : Prop := {
  sv_features : ds_n_features d' = ds_n_features d;
  sv_completes : forall e t, P e -> represents e t -> completes C d e t <-> completes C d' e t;
  sv_loss : forall e t, P e -> represents e t -> completes C d e t ->
    lf_loss (ec_loss C) (predictions C d e t) (ds_y d) (ds_weights d) = lf_loss (ec_loss C) (predictions C d' e t) (ds_y d') (ds_weights d');
  sv_finite : forall e t, P e -> represents e t -> completes C d e t ->
    existsb (fun v => negb (ffinite (ec_F C) v)) (predictions C d e t) = existsb (fun v => negb (ffinite (ec_F C) v)) (predictions C d' e t);
  sv_slope : forall e t out out' dl dl' ci, P e -> represents e t -> completes C d e t ->
    List.length out = ds_n_rows d -> List.length out' = ds_n_rows d' ->
    lf_dloss (ec_loss C) (predictions C d e t) (ds_y d) (ds_weights d) out = Ok dl ->
    lf_dloss (ec_loss C) (predictions C d' e t) (ds_y d') (ds_weights d') out' = Ok dl' ->
    ci < List.length (consts e) -> loss_slope C d e t dl ci = loss_slope C d' e t dl' ci }.

(** ** Proof *)
Lemma ready_ev {T} n (d : dataset T) ev : ds_n_rows d = n -> List.length (ev_yhat ev) = n /\ mat_ok (ev_scratch ev) -> ev_ready d ev.
Proof. intros <- H. exact H. Qed.

(** What [loss_and_grad] answers, in every case. *)
Lemma loss_and_grad_val {T W} (C : eval_cfg T) (OC : opt_cfg T W) d e t (Seen : list pnode -> Prop) : dataset_ok d -> 1 <= ds_n_rows d ->
  ok_tree (ec_O C) (ec_D C) e (ds_x d) t -> fits_u16 e (ds_x d) t -> Seen (nodes e) -> loss_total C d -> told_apart (ec_hash C) Seen (nodes e) -> forall gc dl,
  grad_reach (ec_F C) (ec_O C) (ec_hash C) (ec_D C) Seen gc -> d_rows gc = ds_n_rows d -> List.length dl = ds_n_rows d ->
  exists gc' dl' v, loss_and_grad C OC e d gc dl = Ok (gc', dl', v)
    /\ grad_reach (ec_F C) (ec_O C) (ec_hash C) (ec_D C) Seen gc' /\ d_rows gc' = ds_n_rows d /\ List.length dl' = ds_n_rows d
    /\ ((~ completes C d e t /\ v = None)
        \/ (completes C d e t /\ if existsb (fun x => negb (ffinite (ec_F C) x)) (predictions C d e t) then v = None
            else exists l, lf_loss (ec_loss C) (predictions C d e t) (ds_y d) (ds_weights d) = Ok l
              /\ if ffinite (ec_F C) l then lf_dloss (ec_loss C) (predictions C d e t) (ds_y d) (ds_weights d) dl = Ok dl'
                   /\ v = Some (to_w OC l (finf (oc_F OC)), map (fun ci => to_w OC (loss_slope C d e t dl' ci) (finf (oc_F OC))) (seq 0 (List.length (consts e))))
                 else v = None)).
Proof.
  intros Hd Hn Hok Hf Hse Hloss Hh gc dl Hgr Hrows Hdl. pose proof Hd as (D1 & D2 & D3 & D4 & D5).
  destruct (eval_grad_spec (ec_F C) (ec_O C) (ec_hash C) (ec_D C) Seen e (ds_x d) t ev_opts gc false Hok D3 Hf (grad_reach_inv _ _ _ _ _ _ Hgr) Hse Hh) as (gc1 & E1 & _ & Hr1); [congruence|rewrite D2; auto|].
  destruct (C09_gradient T (ec_F C) (ec_O C) (ec_hash C) (ec_D C) e (ds_x d) t ev_opts gc false Seen Hok D3 Hf) as (gc' & vals & G & cpl & E & Hvl & Hgn & Hgc & HG & _ & Hcpl & Hvals); auto; try congruence.
  assert (Hreach : grad_reach (ec_F C) (ec_O C) (ec_hash C) (ec_D C) Seen gc') by (exact (greach_eval (ec_F C) (ec_O C) (ec_hash C) (ec_D C) Seen gc e (ds_x d) false ev_opts gc' _ Hgr Hse E)).
  rewrite E in E1. injection E1 as <- _. assert (Hr' : d_rows gc' = ds_n_rows d) by congruence.
  assert (HC : cpl = true <-> completes C d e t) by (unfold completes; rewrite <- D2; apply Hcpl; reflexivity).
  assert (Hpl : List.length (predictions C d e t) = ds_n_rows d) by (unfold predictions; now rewrite map_length, seq_length).
  unfold loss_and_grad. rewrite E. cbn [bind].
  destruct cpl; cbn [negb].
  2:{ exists gc', dl, None. split; auto. split; auto. split; auto. split; auto. left. split; auto. intros X. apply HC in X. discriminate. }
  assert (Hpred : vals = predictions C d e t).
  { apply nth_error_ext. intros i. destruct (Nat.lt_ge_cases i (ds_n_rows d)) as [Hi|Hi].
    - destruct (Hvals (or_introl eq_refl) i) as [-> _]; [rewrite D2; auto|]. unfold predictions. symmetry. apply (tab_nth (ds_n_rows d)). auto.
    - transitivity (@None T); [|symmetry]; apply nth_error_None; [rewrite Hvl, D2; auto|rewrite Hpl; auto]. }
  subst vals. destruct (existsb _ (predictions C d e t)).
  { exists gc', dl, None. split; auto. split; auto. split; auto. split; auto. right. split; auto. apply HC. auto. }
  destruct (proj1 Hloss (predictions C d e t) Hpl) as [l El]. rewrite El. cbn [bind].
  destruct (ffinite (ec_F C) l) eqn:Efl; cbn [negb].
  2:{ exists gc', dl, None. split; auto. split; auto. split; auto. split; auto. right. split; [apply HC; auto|]. exists l. rewrite Efl. auto. }
  destruct (proj2 Hloss (predictions C d e t) dl Hpl Hdl) as (dl' & Edl & Hdl'). rewrite Edl. cbn [bind].
  assert (Eg : mapM (fun ci => let! row := slice (m_data G) (ci * ds_n_rows d) (ds_n_rows d) in
          let! z := zip_eq dl' row in
          Ok (to_w OC (fold_left (fun a q => fadd (ec_F C) a (fmul (ec_F C) (fst q) (snd q))) z (fzero (ec_F C))) (finf (oc_F OC))))
        (seq 0 (List.length (consts e))) = Ok (map (fun ci => to_w OC (loss_slope C d e t dl' ci) (finf (oc_F OC))) (seq 0 (List.length (consts e))))).
  { apply mapM_map. intros ci Hci. apply in_seq in Hci.
    rewrite (slice_tab _ _ _ (grad_comp (ec_F C) (ec_O C) e (ds_x d) false t ci)).
    - cbn [bind]. rewrite zip_eq_ok by (rewrite map_length, seq_length; auto). reflexivity.
    - intros r Hr. destruct (Hvals (or_introl eq_refl) r) as [_ Hg]; [rewrite D2; auto|]. rewrite D2 in Hg. apply Hg. cbn. lia.
    - unfold mat_ok in HG. rewrite HG, Hgn, Hgc, D2. cbn. nia. }
  rewrite Eg. cbn [bind]. exists gc', dl'. eexists. split; [reflexivity|]. split; auto. split; auto. split; auto.
  right. split; [apply HC; auto|]. exists l. rewrite Efl. auto.
Qed.

Section Opt.
Context {T W : Type} (C : eval_cfg T) (OC : opt_cfg T W) (d d' : dataset T) (P : expr T -> Prop) (V : same_view C P d d')
  (Hd : dataset_ok d) (Hd' : dataset_ok d') (Hn : 1 <= ds_n_rows d) (Hn' : 1 <= ds_n_rows d') (Hl : loss_total C d) (Hl' : loss_total C d')
  (Pw : forall e cs, P e -> List.length cs = List.length (consts e) -> P (with_consts e cs)).
Local Notation F := (ec_F C).
Local Notation FW := (oc_F OC).
Context (e : expr T) (p : plan) (t : tree) (He : P e)
  (Hok : ok_tree (ec_O C) (ec_D C) e (ds_x d) t) (Hok' : ok_tree (ec_O C) (ec_D C) e (ds_x d') t) (Hf : fits_u16 e (ds_x d) t) (Hf' : fits_u16 e (ds_x d') t)
  (Hp : compile_plan (ec_hash C) (ec_D C) (nodes e) (ds_n_features d) (List.length (consts e)) = Ok p)
  (Seen : list pnode -> Prop) (Hse : Seen (nodes e)) (Hh : told_apart (ec_hash C) Seen (nodes e)).

Definition RS (st st' : cstate T) : Prop := cs_consts st = cs_consts st' /\ cs_inv C d e Seen st /\ cs_inv C d' e Seen st'.

Lemma loss_only_sim cs ev ev' : List.length cs = List.length (consts e) -> ev_ready d ev -> ev_ready d' ev' ->
  agree (fun a b => ev_ready d (fst a) /\ ev_ready d' (fst b) /\ snd a = snd b) (loss_only C OC p (with_consts e cs) d ev) (loss_only C OC p (with_consts e cs) d' ev').
Proof.
  intros Hcs Hev Hev'. assert (Hrep : represents (with_consts e cs) t) by apply Hok. assert (HP : P (with_consts e cs)) by auto.
  destruct (loss_only_spec C OC d e p t Hd Hn Hok Hf Hp Hl cs ev Hcs Hev) as (ev1 & R1 & ->).
  assert (Hp' : compile_plan (ec_hash C) (ec_D C) (nodes e) (ds_n_features d') (List.length (consts e)) = Ok p) by (rewrite (sv_features _ _ _ _ V); exact Hp).
  destruct (loss_only_spec C OC d' e p t Hd' Hn' Hok' Hf' Hp' Hl' cs ev' Hcs Hev') as (ev2 & R2 & ->). cbn [agree fst snd]. split; auto. split; auto.
  pose proof (all_fin_completes C d (with_consts e cs) t Hd Hn) as A1. pose proof (all_fin_completes C d' (with_consts e cs) t Hd' Hn') as A2.
  pose proof (sv_completes _ _ _ _ V _ _ HP Hrep) as A3.
  destruct (all_fin F (ec_O C) (with_consts e cs) (ds_x d) t), (all_fin F (ec_O C) (with_consts e cs) (ds_x d') t); auto.
  - rewrite (sv_loss _ _ _ _ V _ _ HP Hrep) by (apply A1; reflexivity). reflexivity.
  - exfalso. assert (false = true) by (apply A2, A3, A1; reflexivity). discriminate.
  - exfalso. assert (false = true) by (apply A1, A3, A2; reflexivity). discriminate.
Qed.
Lemma loss_and_grad_sim cs gc gc' dl dl' : List.length cs = List.length (consts e) ->
  grad_reach F (ec_O C) (ec_hash C) (ec_D C) Seen gc -> d_rows gc = ds_n_rows d -> List.length dl = ds_n_rows d ->
  grad_reach F (ec_O C) (ec_hash C) (ec_D C) Seen gc' -> d_rows gc' = ds_n_rows d' -> List.length dl' = ds_n_rows d' ->
  agree (fun a b => snd a = snd b /\ (grad_reach F (ec_O C) (ec_hash C) (ec_D C) Seen (fst (fst a)) /\ d_rows (fst (fst a)) = ds_n_rows d /\ List.length (snd (fst a)) = ds_n_rows d)
      /\ (grad_reach F (ec_O C) (ec_hash C) (ec_D C) Seen (fst (fst b)) /\ d_rows (fst (fst b)) = ds_n_rows d' /\ List.length (snd (fst b)) = ds_n_rows d'))
    (loss_and_grad C OC (with_consts e cs) d gc dl) (loss_and_grad C OC (with_consts e cs) d' gc' dl').
Proof.
  intros Hcs G1 G2 G3 G1' G2' G3'. assert (Hrep : represents (with_consts e cs) t) by apply Hok. assert (HP : P (with_consts e cs)) by auto.
  destruct (loss_and_grad_val C OC d (with_consts e cs) t Seen Hd Hn (ok_with C _ _ _ _ Hcs Hok) (fits_with _ _ _ _ Hcs Hf) Hse Hl Hh gc dl G1 G2 G3) as (g1 & l1 & v1 & E1 & I1 & I2 & I3 & K1).
  destruct (loss_and_grad_val C OC d' (with_consts e cs) t Seen Hd' Hn' (ok_with C _ _ _ _ Hcs Hok') (fits_with _ _ _ _ Hcs Hf') Hse Hl' Hh gc' dl' G1' G2' G3') as (g2 & l2 & v2 & E2 & J1 & J2 & J3 & K2).
  rewrite E1, E2. cbn [agree fst snd]. split; [|auto]. pose proof (sv_completes _ _ _ _ V _ _ HP Hrep) as A3.
  destruct K1 as [[N1 ->]|[N1 K1]], K2 as [[N2 ->]|[N2 K2]]; auto; [tauto|tauto|].
  rewrite <- (sv_finite _ _ _ _ V _ _ HP Hrep N1) in K2. destruct (existsb _ (predictions C d (with_consts e cs) t)); [congruence|].
  destruct K1 as (l & L1 & K1), K2 as (l' & L2 & K2). rewrite <- (sv_loss _ _ _ _ V _ _ HP Hrep N1), L1 in L2. injection L2 as <-.
  destruct (ffinite F l); [|congruence]. destruct K1 as [M1 ->], K2 as [M2 ->]. f_equal. f_equal. apply map_ext_in. intros ci Hci. apply in_seq in Hci.
  f_equal. apply (sv_slope _ _ _ _ V (with_consts e cs) t dl dl' l1 l2 ci); auto. lia.
Qed.

Lemma objective_sim : (forall s s' x, RS s s' -> agree (fun a b => RS (fst a) (fst b) /\ snd a = snd b) (ob_f (const_objective C OC p e d) s x) (ob_f (const_objective C OC p e d') s' x))
  /\ forall s s' x, RS s s' -> agree (fun a b => RS (fst a) (fst b) /\ snd a = snd b) (ob_fg (const_objective C OC p e d) s x) (ob_fg (const_objective C OC p e d') s' x).
Proof.
  split; intros s s' x (H1 & (A1 & A2 & A3 & A4 & A5) & (B1 & B2 & B3 & B4 & B5)); cbn [const_objective ob_f ob_fg]; rewrite <- H1;
    (destruct (zip_eq (cs_consts s) x) as [z| |] eqn:Ez; cbn [bind]; try exact I);
    (assert (Hx : List.length (cs_consts s) = List.length x) by (unfold zip_eq, assert_ in Ez; destruct (Nat.eqb_spec (List.length (cs_consts s)) (List.length x)); [auto|discriminate]));
    (destruct (write_spec OC (cs_consts s) x Hx) as (cs & E1 & E2 & _); rewrite E1; destruct (convert OC x); cbn [negb]);
    try (cbn; split; [split; [reflexivity|split; (split; [cbn; congruence|auto])]|reflexivity]).
  - eapply agree_bind; [apply loss_only_sim; [congruence|exact A2|exact B2]|]. intros [a v] [b w] _ _ (Ra & Rb & Hv). cbn [fst snd] in *. subst w. cbn.
    split; [split; [reflexivity|split; (split; [cbn; congruence|auto])]|reflexivity].
  - eapply agree_bind; [apply loss_and_grad_sim; [congruence|auto..]|]. intros [[g1 k1] v] [[g2 k2] w] _ _ (Hv & (R1 & R2 & R3) & (Q1 & Q2 & Q3)). cbn [fst snd] in *. subst w. cbn.
    split; [split; [reflexivity|split; (split; [cbn; congruence|auto])]|reflexivity].
Qed.

Lemma from_start_sim st st' x : RS st st' ->
  agree (fun a b => RS (fst a) (fst b) /\ snd a = snd b) (optimize_from_start C OC p e d st x) (optimize_from_start C OC p e d' st' x).
Proof.
  intros H. destruct objective_sim as [Of Og]. unfold optimize_from_start. cbv zeta. destruct (List.length (consts e) =? 1).
  - eapply agree_bind with (R := fun a b => RC RS (fst a) (fst b) /\ snd a = snd b).
    + destruct (index x 0) as [x0| |]; cbn [bind]; try exact I. apply (newton_sim FW (oc_OO OC) _ _ RS Of Og). exact H.
    + intros [[s c] r] [[s' c'] r'] _ _ [[Hr _] Hs]. cbn in *. auto.
  - eapply agree_bind with (R := fun a b => RC RS (fst a) (fst b) /\ snd a = snd b).
    + apply (bfgs_sim FW (oc_OO OC) _ _ RS Of Og). exact H.
    + intros [[s c] r] [[s' c'] r'] _ _ [[Hr _] Hs]. cbn in *. auto.
Qed.
Lemma restarts_sim x0 : forall k r st st' best, RS st st' ->
  agree (fun a b => RS (snd (fst a)) (snd (fst b)) /\ fst (fst a) = fst (fst b) /\ snd a = snd b) (restarts C OC k p e d x0 r st best) (restarts C OC k p e d' x0 r st' best).
Proof.
  induction k as [|k IH]; intros r st st' best H; cbn [restarts]; [cbn; auto|]. destruct (perturb OC r x0) as [xt r1].
  eapply agree_bind; [apply from_start_sim; exact H|]. intros [s o] [s' o'] _ _ [Hs Ho]. cbn [fst snd] in *. subst o'. apply IH. exact Hs.
Qed.
End Opt.
