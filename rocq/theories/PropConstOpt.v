(** Property C32: optimising the constants of a member never makes it worse. *)
From Coq Require Import QArith.
From Verif Require Import Base BaseLemmas Node Tree NodeProofs Compile CompileProofs Eval EvalProofs EvalTop Deriv DerivSpec DerivProofs DerivTop DerivReach PropEval
  Rng Registry Complexity ComplexitySpec ComplexityProofs PropComplexity Num Instances Member Dataset PropDataset Loss PropLoss Optim PropOptim PropOptimTotal ConstOpt.
Local Open Scope nat_scope.

(** ** Specification *)
(** [l] is the loss of the expression [e] on the dataset, all values and the loss being finite. *)
Definition data_loss {T} (C : eval_cfg T) (d : dataset T) (e : expr T) (t : tree) (l : T) : Prop :=
  completes C d e t /\ lf_loss (ec_loss C) (predictions C d e t) (ds_y d) (ds_weights d) = Ok l /\ ffinite (ec_F C) l = true.

(** The loss function and its derivative do not panic on predictions of the right length. *)
Definition loss_total {T} (C : eval_cfg T) (d : dataset T) : Prop :=
  (forall yhat, List.length yhat = ds_n_rows d -> exists l, lf_loss (ec_loss C) yhat (ds_y d) (ds_weights d) = Ok l)
  /\ (forall yhat out, List.length yhat = ds_n_rows d -> List.length out = ds_n_rows d ->
        exists dl, lf_dloss (ec_loss C) yhat (ds_y d) (ds_weights d) out = Ok dl /\ List.length dl = ds_n_rows d).

(** Everything a caller guarantees about a member, a dataset and the buffers; [Seen] contains every formula whose gradient is ever computed in the context. *)
Record opt_safe {T} (C : eval_cfg T) (Seen : list pnode -> Prop) (d : dataset T) (m : member T) (ev : evaluator T) (gc : dctx T) (t : tree) : Prop := {
  or_data : dataset_ok d;
  or_rows : 1 <= ds_n_rows d;
  or_tree : ok_tree (ec_O C) (ec_D C) (m_expr m) (ds_x d) t;
  or_u16 : fits_u16 (m_expr m) (ds_x d) t;
  or_plan : plan_fresh C (ds_n_features d) m;
  or_ev : ev_ready d ev;
  or_gc : grad_reach (ec_F C) (ec_O C) (ec_hash C) (ec_D C) Seen gc;
  or_gc_rows : d_rows gc = ds_n_rows d;
  or_seen : Seen (nodes (m_expr m));
  or_widths : widths (ec_umax C) (ec_D C) (ec_size C);
  or_size : tsize t <= ec_umax C;
  or_loss : loss_total C d }.
(** And the hash tells the member's formula from the others of [Seen]. *)
Definition opt_ready {T} (C : eval_cfg T) (Seen : list pnode -> Prop) (d : dataset T) (m : member T) (ev : evaluator T) (gc : dctx T) (t : tree) : Prop :=
  opt_safe C Seen d m ev gc t /\ told_apart (ec_hash C) Seen (nodes (m_expr m)).

(** Every loss of the library is total in this sense. *)
Lemma zip3_len {A B D} (a : list A) (b : list B) (c : list D) n : List.length a = n -> List.length b = n -> List.length c = n ->
  List.length (combine (combine a b) c) = n.
Proof. intros. rewrite !combine_length. lia. Qed.

Lemma mean_total {T} (F : FloatOps T) (LO : LossOps T) p (C : eval_cfg T) d : dataset_ok d -> ec_loss C = mean_of F LO p -> loss_total C d.
Proof.
  intros (_ & _ & _ & Hy & Hw) E. unfold loss_total. rewrite E. cbn [mean_of lf_loss lf_dloss]. split.
  - intros yhat Hl. unfold mean_loss. rewrite Hl, Hy, Nat.eqb_refl. cbn [assert_ bind].
    destruct (ds_weights d) as [w|] eqn:Ew.
    + rewrite (Hw w eq_refl), Nat.eqb_refl. cbn [assert_ bind]. destruct (feqb F (fsum F w) (fzero F)); [eauto|].
      rewrite zip_eq_ok by lia. cbn [bind]. rewrite zip_eq_ok by (rewrite combine_length, Hl, Hy, (Hw w eq_refl); lia). cbn [bind]. eauto.
    + destruct (ds_y d) as [|y0 ys] eqn:Ey; [eauto|]. rewrite zip_eq_ok by (cbn in *; lia). cbn [bind]. eauto.
  - intros yhat out Hl Ho. unfold mean_dloss. rewrite Hl, Ho, Hy, Nat.eqb_refl. cbn [assert_ bind].
    destruct (ds_weights d) as [w|] eqn:Ew.
    + rewrite (Hw w eq_refl), Nat.eqb_refl. cbn [assert_ bind]. destruct (feqb F (fsum F w) (fzero F)); [eexists; split; [reflexivity|apply fill_length]|].
      rewrite zip_eq_ok by lia. cbn [bind]. rewrite zip_eq_ok by (rewrite combine_length, Hl, Hy, (Hw w eq_refl); lia). cbn [bind].
      eexists. split; [reflexivity|]. rewrite map_length. apply zip3_len; auto.
    + destruct (ds_y d) as [|y0 ys] eqn:Ey; [eexists; split; [reflexivity|apply fill_length]|]. rewrite zip_eq_ok by (cbn in *; lia). cbn [bind].
      eexists. split; [reflexivity|]. rewrite map_length, combine_length, Hl. cbn in *. lia.
Qed.
Lemma rmse_total {T} (F : FloatOps T) (LO : LossOps T) (C : eval_cfg T) d : dataset_ok d -> ec_loss C = rmse_loss F LO -> loss_total C d.
Proof.
  intros Hd E. pose proof Hd as (_ & _ & _ & Hy & Hw).
  assert (M : forall yhat, List.length yhat = ds_n_rows d -> exists l, mean_loss F LO (squared_loss F LO) yhat (ds_y d) (ds_weights d) = Ok l).
  { set (C1 := mkEvalCfg F LO (ec_O C) (ec_hash C) (ec_umax C) (ec_D C) (ec_size C) (mean_of F LO (squared_loss F LO)) (ec_parsimony C) (ec_use_baseline C)).
    apply (proj1 (mean_total F LO (squared_loss F LO) C1 d Hd eq_refl)). }
  unfold loss_total. rewrite E. cbn [rmse_loss lf_loss lf_dloss]. split.
  - intros yhat Hl. destruct (M yhat Hl) as [l ->]. cbn [bind]. eauto.
  - intros yhat out Hl Ho. destruct (M yhat Hl) as [l ->]. rewrite Hl, Ho, Hy, Nat.eqb_refl. cbn [assert_ bind].
    destruct (feqb F (lo_sqrt LO l) (fzero F) || negb (ffinite F (lo_sqrt LO l))); [eexists; split; [reflexivity|apply fill_length]|].
    destruct (ds_weights d) as [w|] eqn:Ew.
    + rewrite (Hw w eq_refl), Nat.eqb_refl. cbn [assert_ bind]. destruct (feqb F (fsum F w) (fzero F)); [eexists; split; [reflexivity|apply fill_length]|].
      rewrite zip_eq_ok by lia. cbn [bind]. rewrite zip_eq_ok by (rewrite combine_length, Hl, Hy, (Hw w eq_refl); lia). cbn [bind].
      eexists. split; [reflexivity|]. rewrite map_length. apply zip3_len; auto.
    + rewrite zip_eq_ok by lia. cbn [bind]. eexists. split; [reflexivity|]. rewrite map_length, combine_length, Hl. lia.
Qed.
Lemma make_loss_total {T} (F : FloatOps T) (LO : LossOps T) k (C : eval_cfg T) d : dataset_ok d -> ec_loss C = make_loss F LO k -> loss_total C d.
Proof. intros Hd E. destruct k; cbn [make_loss] in E; eauto using mean_total, rmse_total. Qed.

(** ** Proof *)
Lemma slice_tab {A} (l : list A) a n (f : nat -> A) : (forall r, r < n -> nth_error l (a + r) = Some (f r)) -> a + n <= List.length l ->
  slice l a n = Ok (map f (seq 0 n)).
Proof.
  intros H Hl. unfold slice. destruct (Nat.leb_spec (a + n) (List.length l)); [|lia]. f_equal.
  apply nth_error_ext. intros i. destruct (Nat.lt_ge_cases i n) as [Hi|Hi].
  - rewrite nth_error_firstn by auto. rewrite nth_error_skipn, H by auto. symmetry. apply (tab_nth n f i). auto.
  - transitivity (@None A); [|symmetry]; apply nth_error_None; rewrite ?firstn_length, ?map_length, ?seq_length; lia.
Qed.

Section Proofs.
Context {T W : Type} (C : eval_cfg T) (OC : opt_cfg T W) (d : dataset T).
Local Notation F := (ec_F C).
Local Notation FW := (oc_F OC).

Lemma all_fin_completes e t : dataset_ok d -> 1 <= ds_n_rows d -> all_fin F (ec_O C) e (ds_x d) t = true <-> completes C d e t.
Proof.
  intros (D1 & D2 & D3 & D4 & D5) Hn. unfold all_fin, completes.
  rewrite andb_true_iff, (colfin_rows F (ec_O C) e (ds_x d) t) by (rewrite D2; exact Hn). rewrite D2.
  assert (Hroot : root_fin F e t = true <-> forall i, t = TConst i -> ffinite (ec_F C) (const_at (ec_F C) e i) = true); [|tauto].
  unfold root_fin. destruct t as [f|i|op ts]; split; auto; try discriminate. intros H j [= <-]. exact H.
Qed.

Lemma ok_with (e : expr T) (cs : list T) t (X : matrix T) : List.length cs = List.length (consts e) -> ok_tree (ec_O C) (ec_D C) e X t -> ok_tree (ec_O C) (ec_D C) (with_consts e cs) X t.
Proof. intros Hl [H1 H2]. split; [exact H1|]. cbn [with_consts consts]. rewrite Hl. exact H2. Qed.
Lemma fits_with (e : expr T) (cs : list T) t (X : matrix T) : List.length cs = List.length (consts e) -> fits_u16 e X t -> fits_u16 (with_consts e cs) X t.
Proof. intros Hl (H1 & H2 & H3). split; [exact H1|]. cbn [with_consts consts]. rewrite Hl. auto. Qed.

(** The point in the type of the data. *)
Fixpoint convert (x : list W) : option (list T) :=
  match x with
  | [] => Some []
  | w :: x' => match oc_of OC w, convert x' with Some v, Some vs => Some (v :: vs) | _, _ => None end
  end.
Lemma write_spec : forall dst x, List.length dst = List.length x ->
  exists cs, write_consts OC dst x = (cs, match convert x with Some _ => true | None => false end) /\ List.length cs = List.length dst
    /\ forall vs, convert x = Some vs -> cs = vs.
Proof.
  induction dst as [|v dst IH]; intros [|w x] Hl; try discriminate.
  - exists []. cbn. split; auto. split; auto. intros vs [= <-]. auto.
  - cbn in Hl. destruct (IH x) as (cs & E & El & Hv); [lia|]. cbn [write_consts convert]. rewrite E.
    destruct (oc_of OC w) as [u|].
    + exists (u :: cs). cbn. destruct (convert x) as [vs|].
      * split; auto. split; auto. intros vs' [= <-]. f_equal. auto.
      * split; auto. split; auto. discriminate.
    + exists (v :: dst). split; auto. split; auto. discriminate.
Qed.
Lemma convert_length : forall x vs, convert x = Some vs -> List.length vs = List.length x.
Proof.
  induction x as [|w x IH]; intros vs H; cbn in H; [injection H as <-; auto|].
  destruct (oc_of OC w), (convert x); try discriminate. injection H as <-. cbn. auto.
Qed.
Lemma convert_default : forall x vs, convert x = Some vs -> map (fun w => match oc_of OC w with Some v => v | None => fzero F end) x = vs.
Proof.
  induction x as [|w x IH]; intros vs H; cbn in H; [injection H as <-; auto|].
  destruct (oc_of OC w) as [v|] eqn:E, (convert x) eqn:E2; try discriminate. injection H as <-. cbn. rewrite E. f_equal. auto.
Qed.

Section Fixed.
Context (e : expr T) (p : plan) (t : tree) (Hd : dataset_ok d) (Hn : 1 <= ds_n_rows d)
  (Hok : ok_tree (ec_O C) (ec_D C) e (ds_x d) t) (Hf : fits_u16 e (ds_x d) t)
  (Hp : compile_plan (ec_hash C) (ec_D C) (nodes e) (ds_n_features d) (List.length (consts e)) = Ok p)
  (Seen : list pnode -> Prop) (Hse : Seen (nodes e)) (Hloss : loss_total C d).

Definition cs_inv (st : cstate T) : Prop :=
  List.length (cs_consts st) = List.length (consts e) /\ ev_ready d (cs_ev st)
  /\ grad_reach F (ec_O C) (ec_hash C) (ec_D C) Seen (cs_grad st) /\ d_rows (cs_grad st) = ds_n_rows d
  /\ List.length (cs_dloss st) = ds_n_rows d.

Lemma predictions_length e' : List.length (predictions C d e' t) = ds_n_rows d.
Proof. unfold predictions. rewrite map_length, seq_length. auto. Qed.

Lemma loss_only_spec cs ev : List.length cs = List.length (consts e) -> ev_ready d ev ->
  exists ev', ev_ready d ev' /\ loss_only C OC p (with_consts e cs) d ev
    = Ok (ev', if all_fin F (ec_O C) (with_consts e cs) (ds_x d) t then
        match lf_loss (ec_loss C) (predictions C d (with_consts e cs) t) (ds_y d) (ds_weights d) with
        | Ok l => if ffinite F l then Some (to_w OC l (finf FW)) else None
        | _ => None
        end
      else None).
Proof.
  intros Hl [Hev Hsc].
  destruct (plan_eval C (with_consts e cs) p d t (ev_yhat ev) (ev_scratch ev) Hd (ok_with _ _ _ _ Hl Hok) (fits_with _ _ _ _ Hl Hf) Hn) as (sc' & out' & b & E & Hsc' & Ho & Hb & Hout); auto.
  { cbn [with_consts nodes consts]. rewrite Hl. exact Hp. }
  exists (mkEvalr out' sc'). split; [split; auto|]. unfold loss_only. rewrite E. cbn [bind].
  destruct b; cbn [negb].
  - rewrite (proj2 (all_fin_completes _ t Hd Hn)) by tauto. rewrite (Hout eq_refl).
    destruct (proj1 Hloss (predictions C d (with_consts e cs) t) (predictions_length _)) as [l ->]. cbn [bind].
    destruct (ffinite F l); reflexivity.
  - destruct (all_fin F (ec_O C) (with_consts e cs) (ds_x d) t) eqn:Ea; [|reflexivity].
    apply (all_fin_completes _ t Hd Hn) in Ea. apply Hb in Ea. discriminate.
Qed.

(** The gradient: the sum over the rows of the derivative of the loss with respect to the prediction times the derivative
    of the prediction with respect to the constant. *)
Definition chain_rule (e' : expr T) (dl : list T) (ci : nat) : W :=
  to_w OC (fold_left (fun a q => fadd F a (fmul F (fst q) (snd q)))
             (combine dl (map (grad_comp F (ec_O C) e' (ds_x d) false t ci) (seq 0 (ds_n_rows d)))) (fzero F)) (finf FW).

Lemma loss_and_grad_spec cs gc dl : told_apart (ec_hash C) Seen (nodes e) -> List.length cs = List.length (consts e) ->
  grad_reach F (ec_O C) (ec_hash C) (ec_D C) Seen gc -> d_rows gc = ds_n_rows d -> List.length dl = ds_n_rows d ->
  let e' := with_consts e cs in
  exists gc' dl' v, loss_and_grad C OC e' d gc dl = Ok (gc', dl', v)
    /\ grad_reach F (ec_O C) (ec_hash C) (ec_D C) Seen gc' /\ d_rows gc' = ds_n_rows d /\ List.length dl' = ds_n_rows d
    /\ forall a g, v = Some (a, g) ->
       exists l, data_loss C d e' t l /\ a = to_w OC l (finf FW)
         /\ lf_dloss (ec_loss C) (predictions C d e' t) (ds_y d) (ds_weights d) dl = Ok dl'
         /\ g = map (chain_rule e' dl') (seq 0 (List.length cs)).
Proof.
  intros Hh Hl Hgr Hrows Hdl e'. pose proof Hd as (D1 & D2 & D3 & D4 & D5).
  assert (Hok' : ok_tree (ec_O C) (ec_D C) e' (ds_x d) t) by (apply ok_with; auto).
  assert (Hf' : fits_u16 e' (ds_x d) t) by (apply fits_with; auto).
  destruct (eval_grad_spec F (ec_O C) (ec_hash C) (ec_D C) Seen e' (ds_x d) t ev_opts gc false Hok' D3 Hf' (grad_reach_inv _ _ _ _ _ _ Hgr) Hse Hh) as (gc1 & E1 & _ & Hr1); [congruence|rewrite D2; auto|].
  destruct (C09_gradient T F (ec_O C) (ec_hash C) (ec_D C) e' (ds_x d) t ev_opts gc false Seen Hok' D3 Hf') as (gc' & vals & G & cpl & E & Hvl & Hgn & Hgc & HG & _ & Hcpl & Hvals); auto; try congruence.
  assert (Hreach : grad_reach F (ec_O C) (ec_hash C) (ec_D C) Seen gc') by (exact (greach_eval F (ec_O C) (ec_hash C) (ec_D C) Seen gc e' (ds_x d) false ev_opts gc' _ Hgr Hse E)).
  rewrite E in E1. injection E1 as <- _.
  assert (Hr' : d_rows gc' = ds_n_rows d) by congruence.
  assert (Hnone : exists gc'0 dl' v, Ok (gc', dl, @None (W * list W)) = Ok (gc'0, dl', v)
    /\ grad_reach F (ec_O C) (ec_hash C) (ec_D C) Seen gc'0 /\ d_rows gc'0 = ds_n_rows d /\ List.length dl' = ds_n_rows d
    /\ forall a g, v = Some (a, g) ->
       exists l, data_loss C d e' t l /\ a = to_w OC l (finf FW)
         /\ lf_dloss (ec_loss C) (predictions C d e' t) (ds_y d) (ds_weights d) dl = Ok dl'
         /\ g = map (chain_rule e' dl') (seq 0 (List.length cs))).
  { do 3 eexists. split; [reflexivity|]. split; auto. split; auto. split; auto. discriminate. }
  unfold loss_and_grad. rewrite E. cbn [bind].
  destruct cpl; cbn [negb]; [|exact Hnone].
  destruct (existsb (fun v => negb (ffinite F v)) vals); [exact Hnone|].
  assert (Hpred : vals = predictions C d e' t).
  { apply nth_error_ext. intros i. destruct (Nat.lt_ge_cases i (ds_n_rows d)) as [Hi|Hi].
    - destruct (Hvals (or_introl eq_refl) i) as [-> _]; [rewrite D2; auto|]. unfold predictions. symmetry. apply (tab_nth (ds_n_rows d)). auto.
    - transitivity (@None T); [|symmetry]; apply nth_error_None; [rewrite Hvl, D2; auto|rewrite predictions_length; auto]. }
  rewrite Hpred. destruct (proj1 Hloss (predictions C d e' t) (predictions_length _)) as [l El]. rewrite El. cbn [bind].
  destruct (ffinite F l) eqn:Efl; cbn [negb]; [|exact Hnone].
  destruct (proj2 Hloss (predictions C d e' t) dl (predictions_length _) Hdl) as (dl' & Edl & Hdl'). rewrite Edl. cbn [bind].
  assert (Eg : mapM (fun ci => let! row := slice (m_data G) (ci * ds_n_rows d) (ds_n_rows d) in
          let! z := zip_eq dl' row in
          Ok (to_w OC (fold_left (fun a q => fadd F a (fmul F (fst q) (snd q))) z (fzero F)) (finf FW)))
        (seq 0 (List.length (consts e'))) = Ok (map (chain_rule e' dl') (seq 0 (List.length cs)))).
  { cbn [with_consts consts]. change (consts e') with cs.
    apply mapM_map. intros ci Hci. apply in_seq in Hci.
    rewrite (slice_tab _ _ _ (grad_comp F (ec_O C) e' (ds_x d) false t ci)).
    - cbn [bind]. rewrite zip_eq_ok by (rewrite map_length, seq_length; auto). reflexivity.
    - intros r Hr. destruct (Hvals (or_introl eq_refl) r) as [_ Hg]; [rewrite D2; auto|]. rewrite D2 in Hg. apply Hg. cbn. change (consts e') with cs. lia.
    - unfold mat_ok in HG. rewrite HG, Hgn, Hgc, D2. cbn. change (consts e') with cs. nia. }
  rewrite Eg. cbn [bind]. do 3 eexists. split; [reflexivity|]. split; auto. split; auto. split; auto.
  intros a g [= <- <-]. exists l. split; [|auto]. split; [|auto]. unfold completes. rewrite <- D2. apply Hcpl; auto.
Qed.

(** Whatever the hash, the gradient is computed and has one component for each constant. *)
Lemma loss_and_grad_any cs gc dl : (forall ns, Seen ns -> sane (ec_O C) ns) -> List.length cs = List.length (consts e) ->
  grad_reach F (ec_O C) (ec_hash C) (ec_D C) Seen gc -> d_rows gc = ds_n_rows d -> List.length dl = ds_n_rows d ->
  exists gc' dl' v, loss_and_grad C OC (with_consts e cs) d gc dl = Ok (gc', dl', v)
    /\ grad_reach F (ec_O C) (ec_hash C) (ec_D C) Seen gc' /\ d_rows gc' = ds_n_rows d /\ List.length dl' = ds_n_rows d
    /\ forall a g, v = Some (a, g) -> List.length g = List.length cs.
Proof.
  intros Hsane Hl Hgr Hrows Hdl. set (e' := with_consts e cs). pose proof Hd as (D1 & D2 & D3 & D4 & D5).
  assert (Hok' : ok_tree (ec_O C) (ec_D C) e' (ds_x d) t) by (apply ok_with; auto).
  assert (Hf' : fits_u16 e' (ds_x d) t) by (apply fits_with; auto).
  destruct (eval_grad_any F (ec_O C) (ec_hash C) (ec_D C) Seen e' (ds_x d) t ev_opts gc false Hok' D3 Hf' (grad_reach_inv _ _ _ _ _ _ Hgr) Hse Hsane)
    as (gc' & ns0 & t0 & E & Hok0 & _ & _ & Hr'); [congruence|rewrite D2; auto|].
  assert (Hreach : grad_reach F (ec_O C) (ec_hash C) (ec_D C) Seen gc') by (exact (greach_eval F (ec_O C) (ec_hash C) (ec_D C) Seen gc e' (ds_x d) false ev_opts gc' _ Hgr Hse E)).
  assert (Hnone : exists gc'0 dl' v, Ok (gc', dl, @None (W * list W)) = Ok (gc'0, dl', v)
    /\ grad_reach F (ec_O C) (ec_hash C) (ec_D C) Seen gc'0 /\ d_rows gc'0 = ds_n_rows d /\ List.length dl' = ds_n_rows d
    /\ forall a g, v = Some (a, g) -> List.length g = List.length cs).
  { do 3 eexists. split; [reflexivity|]. split; auto. split; [congruence|]. split; auto. discriminate. }
  unfold loss_and_grad. rewrite E. cbn [bind]. unfold expected_grad. cbv zeta.
  set (nd := n_dirs false (swap e' ns0) (ds_x d)). assert (Hnd : nd = List.length cs) by reflexivity.
  destruct (kstop ev_opts _); [exact Hnone|].
  destruct (negb _); [exact Hnone|].
  destruct (existsb _ _); [exact Hnone|].
  set (vals := tab (m_ncols (ds_x d)) _). assert (Hvl : List.length vals = ds_n_rows d) by (unfold vals; rewrite tab_length; auto).
  destruct (proj1 Hloss vals Hvl) as [l El]. rewrite El. cbn [bind].
  destruct (negb (ffinite F l)); [exact Hnone|].
  destruct (proj2 Hloss vals dl Hvl Hdl) as (dl' & Edl & Hdl'). rewrite Edl. cbn [bind m_data].
  match goal with |- context [mapM ?f ?l] => destruct (mapM_ok f l) as (g & Eg & Hg) end.
  { intros ci Hci. apply in_seq in Hci. change (consts e') with cs in Hci.
    rewrite slice_ok by (rewrite gflat_length, Hnd, D2; nia). cbn [bind]. rewrite zip_eq_ok.
    - cbn. eauto.
    - rewrite firstn_length, skipn_length, gflat_length, Hnd, D2, Hdl'. nia. }
  rewrite Eg. cbn [bind]. do 3 eexists. split; [reflexivity|]. split; auto. split; [congruence|]. split; auto. intros a g0 [= _ <-].
  rewrite Hg, seq_length. reflexivity.
Qed.

Section Objective.
Context (Val : list T -> W -> Prop)
  (HG : forall cs gc dl, List.length cs = List.length (consts e) -> grad_reach F (ec_O C) (ec_hash C) (ec_D C) Seen gc -> d_rows gc = ds_n_rows d -> List.length dl = ds_n_rows d ->
    exists gc' dl' v, loss_and_grad C OC (with_consts e cs) d gc dl = Ok (gc', dl', v)
      /\ grad_reach F (ec_O C) (ec_hash C) (ec_D C) Seen gc' /\ d_rows gc' = ds_n_rows d /\ List.length dl' = ds_n_rows d
      /\ forall a g, v = Some (a, g) -> Val cs a /\ List.length g = List.length cs).
Definition value_of (x : list W) (a : W) : Prop := exists vs, convert x = Some vs /\ Val vs a.

Lemma obj_total : total_objective cs_inv (List.length (consts e)) (const_objective C OC p e d) value_of.
Proof.
  assert (HI : forall st cs, cs_inv st -> List.length cs = List.length (cs_consts st) -> cs_inv (mkCState cs (cs_ev st) (cs_grad st) (cs_dloss st))).
  { intros st cs (H1 & H2 & H3 & H4 & H5) Hl. unfold cs_inv. cbn. rewrite Hl. auto. }
  split; intros st x Hst Hx; pose proof Hst as (H1 & H2 & H3 & H4 & H5); cbn [const_objective ob_f ob_fg];
    rewrite zip_eq_ok by congruence; cbn [bind];
    destruct (write_spec (cs_consts st) x) as (cs & -> & Hl & Hv); try congruence;
    unfold value_of; destruct (convert x) as [vs|] eqn:Ec; cbn [negb].
  - rewrite (Hv vs eq_refl) in *. destruct (loss_only_spec vs (cs_ev st)) as (ev' & Hev' & ->); [congruence|auto|]. cbn [bind].
    do 2 eexists. split; [reflexivity|]. unfold cs_inv. cbn. rewrite Hl. auto.
  - do 2 eexists. split; [reflexivity|auto].
  - rewrite (Hv vs eq_refl) in *.
    destruct (HG vs (cs_grad st) (cs_dloss st)) as (gc' & dl' & v & -> & G1 & G2 & G3 & G4); [congruence|auto|auto|auto|]. cbn [bind].
    do 2 eexists. split; [reflexivity|]. split; [unfold cs_inv; cbn; rewrite Hl; auto|].
    intros a g Ev. destruct (G4 a g Ev) as [V1 V2]. split; [eauto|congruence].
  - do 2 eexists. split; [reflexivity|]. split; [auto|discriminate].
Qed.

Lemma optimize_from_start_spec st x : cs_inv st -> List.length x = List.length (consts e) ->
  exists st' r, optimize_from_start C OC p e d st x = Ok (st', r) /\ cs_inv st'
    /\ forall o, r = Some o -> List.length (or_minimizer o) = List.length (consts e)
         /\ (or_minimum o = finf FW \/ value_of (or_minimizer o) (or_minimum o)).
Proof.
  intros Hst Hx. pose proof obj_total as HT. unfold optimize_from_start. destruct (Nat.eqb_spec (List.length (consts e)) 1) as [E1|E1].
  - destruct x as [|x0 [|]]; cbn in Hx; try lia. cbn [index nth_error expect bind]. rewrite E1 in HT.
    destruct (C33_newton_total _ _ FW (oc_OO OC) _ _ _ (mkOptim (oc_iterations OC) (oc_f_calls_limit OC) (oc_g_abstol OC)) (oc_ls OC) st x0 HT Hst) as (st' & c & r & -> & HI & Hr).
    cbn [bind]. do 2 eexists. split; [reflexivity|]. split; auto. intros o Eo. destruct (Hr o Eo) as (x' & -> & H). rewrite E1. auto.
  - rewrite <- Hx in HT.
    destruct (C33_bfgs_total _ _ FW (oc_OO OC) _ _ _ (mkOptim (oc_iterations OC) (oc_f_calls_limit OC) (oc_g_abstol OC)) (oc_ls OC) st x HT Hst) as (st' & c & r & -> & HI & Hr).
    cbn [bind]. do 2 eexists. split; [reflexivity|]. split; auto. intros o Eo. destruct (Hr o Eo) as [-> H]. auto.
Qed.

(** The best so far: the baseline, or a point with its objective value. *)
Definition best_ok (base : W) (best : list W * W * nat) : Prop :=
  let '(bx, bf, _) := best in
  List.length bx = List.length (consts e) /\ (bf = base \/ bf = finf FW \/ value_of bx bf).

Lemma take_better_ok base best r : best_ok base best ->
  (forall o, r = Some o -> List.length (or_minimizer o) = List.length (consts e)
         /\ (or_minimum o = finf FW \/ value_of (or_minimizer o) (or_minimum o))) ->
  best_ok base (take_better OC best r).
Proof.
  destruct best as [[bx bf] n]. intros Hb Hr. unfold take_better. destruct r as [o|]; auto. destruct (Hr o eq_refl) as [H1 H2].
  cbv zeta. destruct (fltb FW (or_minimum o) bf); [|exact Hb]. unfold best_ok. auto.
Qed.

Lemma perturb_length : forall x0 r, List.length (fst (perturb OC r x0)) = List.length x0.
Proof.
  induction x0 as [|v x0 IH]; intros r; auto. cbn [perturb]. destruct (rng_real r) as [eps r1].
  specialize (IH r1). destruct (perturb OC r1 x0) as [rest r2]. cbn in *. auto.
Qed.

Lemma restarts_spec base x0 : List.length x0 = List.length (consts e) -> forall k r st best, cs_inv st -> best_ok base best ->
  exists r' st' best', restarts C OC k p e d x0 r st best = Ok (r', st', best') /\ cs_inv st' /\ best_ok base best'.
Proof.
  intros Hx. induction k as [|k IH]; intros r st best Hst Hb; cbn [restarts]; [eauto 10|].
  pose proof (perturb_length x0 r) as Hl. destruct (perturb OC r x0) as [xt r1]. cbn [fst] in Hl.
  destruct (optimize_from_start_spec st xt Hst) as (st1 & o & -> & Hst1 & Ho); [congruence|]. cbn [bind].
  apply IH; auto. apply take_better_ok; auto.
Qed.
End Objective.
End Fixed.
End Proofs.

(** ** Theorems *)

(** The outcome in terms of the values the minimiser was given. *)
Lemma optimize_generic : forall (T W : Type) (C : eval_cfg T) (OC : opt_cfg T W) Seen (r : rng W) m d bl ev gc nb t (Val : list T -> W -> Prop),
  opt_safe C Seen d m ev gc t -> (forall w, fltb (oc_F OC) (finf (oc_F OC)) w = false) -> (forall w, fltb (oc_F OC) w w = false) ->
  (forall cs gc dl, List.length cs = List.length (consts (m_expr m)) -> grad_reach (ec_F C) (ec_O C) (ec_hash C) (ec_D C) Seen gc -> d_rows gc = ds_n_rows d ->
    List.length dl = ds_n_rows d -> exists gc' dl' v, loss_and_grad C OC (with_consts (m_expr m) cs) d gc dl = Ok (gc', dl', v)
      /\ grad_reach (ec_F C) (ec_O C) (ec_hash C) (ec_D C) Seen gc' /\ d_rows gc' = ds_n_rows d /\ List.length dl' = ds_n_rows d
      /\ forall a g, v = Some (a, g) -> Val cs a /\ List.length g = List.length cs) ->
  exists r' m' ev' gc' nb' improved evals,
    optimize_constants C OC r m d bl ev gc nb = Ok (r', m', ev', gc', nb', improved, evals)
    /\ m_id m' = m_id m /\ m_parent m' = m_parent m /\ m_plan m' = m_plan m /\ nodes (m_expr m') = nodes (m_expr m)
    /\ var_names (m_expr m') = var_names (m_expr m) /\ List.length (consts (m_expr m')) = List.length (consts (m_expr m))
    /\ (improved = true ->
          (exists l0 l1 a, data_loss C d (m_expr m) t l0 /\ data_loss C d (m_expr m') t l1
             /\ Val (consts (m_expr m')) a /\ fltb (oc_F OC) a (to_w OC l0 (finf (oc_F OC))) = true
             /\ m_loss m' = l1
             /\ m_cost m' = loss_to_cost (ec_F C) (ec_LO C) l1 (m_complexity m') (ec_parsimony C) (ec_use_baseline C) bl)
          /\ m_complexity m' = Nat.min (ec_umax C) (cost (ec_size C) t)
          /\ m_birth m' = nb /\ nb' = S nb)
    /\ (improved = false -> consts (m_expr m') = consts (m_expr m) /\ m_birth m' = m_birth m /\ m_loss m' = m_loss m
          /\ m_cost m' = m_cost m /\ nb' = nb
          /\ (m_complexity m' = m_complexity m \/ m_complexity m' = Nat.min (ec_umax C) (cost (ec_size C) t)))
    /\ opt_safe C Seen d m' ev' gc' t.
Proof.
  intros T W C OC Seen r m d bl ev gc nb t Val R Hinf Hirr HG.
  pose proof R as [Hd Hn Hok Hf Hp Hev Hgc Hgr Hse Hw Hsz Hl].
  match goal with |- exists r' m' ev' gc' nb' improved evals, _ = _ /\ @?K m' ev' gc' nb' improved => set (Post := K) end.
  assert (Hsame : forall (r0 : rng W) ev' (n : nat), ev_ready d ev' ->
    exists r' m' ev'' gc' nb' improved evals, Ok (r0, m, ev', gc, nb, false, n) = Ok (r', m', ev'', gc', nb', improved, evals) /\ Post m' ev'' gc' nb' improved).
  { intros r0 ev' n Hev'. do 7 eexists. split; [reflexivity|]. unfold Post. do 6 (split; [reflexivity|]). split; [discriminate|].
    split; [intros _; auto 10|]. split; auto. }
  unfold optimize_constants. destruct (oc_enabled OC); cbn [negb]; [|apply Hsame; auto].
  destruct (Nat.eqb_spec (List.length (consts (m_expr m))) 0) as [|Hne]; [apply Hsame; auto|].
  remember (m_expr m) as e eqn:Ee.
  assert (Hwe : with_consts e (consts e) = e) by (destruct e; reflexivity).
  assert (Hp' : compile_plan (ec_hash C) (ec_D C) (nodes e) (ds_n_features d) (List.length (consts e)) = Ok (m_plan m)) by (rewrite Ee; exact Hp).
  destruct (loss_only_spec C OC d e (m_plan m) t Hd Hn Hok Hf Hp' Hl (consts e) ev eq_refl Hev) as (ev1 & Hev1 & E1). rewrite Hwe in E1.
  rewrite E1. cbn [bind].
  destruct (all_fin (ec_F C) (ec_O C) e (ds_x d) t) eqn:Ea; [|apply Hsame; auto].
  destruct (proj1 Hl (predictions C d e t)) as [l0 El0]; [unfold predictions; rewrite map_length, seq_length; auto|]. rewrite El0.
  destruct (ffinite (ec_F C) l0) eqn:Ef0; [|apply Hsame; auto].
  assert (DL0 : data_loss C d e t l0) by (split; [apply all_fin_completes; auto|auto]).
  set (x0 := map (fun v => to_w OC v (fzero (oc_F OC))) (consts e)).
  assert (Hx0 : List.length x0 = List.length (consts e)) by (unfold x0; apply map_length).
  set (base := to_w OC l0 (finf (oc_F OC))).
  destruct (optimize_from_start_spec C OC d e (m_plan m) t Hd Hn Hok Hf Hp' Seen Hl Val HG (mkCState (consts e) ev1 gc (fill (ds_n_rows d) (fzero (ec_F C)))) x0) as (st1 & o1 & -> & Hst1 & Ho1).
  { unfold cs_inv. cbn. rewrite fill_length. auto. } { auto. }
  cbn [bind].
  destruct (restarts_spec C OC d e (m_plan m) t Hd Hn Hok Hf Hp' Seen Hl Val HG base x0 Hx0 (oc_nrestarts OC) r st1 (take_better OC (x0, base, 0) o1) Hst1) as (r' & st2 & [[bx bf] evals] & -> & Hst2 & Hb2).
  { apply take_better_ok; auto. unfold best_ok. auto. }
  cbn [bind]. destruct Hst2 as (S1 & S2 & S3 & S4 & S5). destruct Hb2 as [Hbl Hbf].
  destruct (fltb (oc_F OC) bf base) eqn:Elt.
  - assert (Hbb : value_of OC Val bx bf).
    { destruct Hbf as [->|[->|?]]; auto; [rewrite Hirr in Elt|rewrite Hinf in Elt]; discriminate. }
    destruct Hbb as (vs & Ec & HV).
    rewrite zip_eq_ok by congruence. cbn [bind].
    set (cs := map (fun w => match oc_of OC w with Some v => v | None => fzero (ec_F C) end) bx).
    assert (Ecs : cs = vs) by (apply (convert_default C OC); auto).
    assert (Hcl : List.length cs = List.length (consts e)) by (unfold cs; rewrite map_length; auto).
    assert (Hex : expr_ok (ec_D C) (m_nrows (ds_x d)) (oknown (ec_O C)) (with_consts e cs)).
    { exists t. exact (ok_with C e cs t (ds_x d) Hcl Hok). }
    assert (Hpf : plan_fresh C (ds_n_features d) (set_consts m cs)).
    { unfold plan_fresh. cbn. rewrite <- Ee, Hcl. exact Hp'. }
    assert (Hok' : ok_tree (ec_O C) (ec_D C) (m_expr (set_consts m cs)) (ds_x d) t) by (cbn; rewrite <- Ee; exact (ok_with C e cs t (ds_x d) Hcl Hok)).
    assert (Hf' : fits_u16 (m_expr (set_consts m cs)) (ds_x d) t) by (cbn; rewrite <- Ee; exact (fits_with e cs t (ds_x d) Hcl Hf)).
    assert (Hex' : expr_ok (ec_D C) (m_nrows (ds_x d)) (oknown (ec_O C)) (m_expr (set_consts m cs))) by (cbn; rewrite <- Ee; exact Hex).
    destruct (evaluate_spec C (set_consts m cs) d bl (cs_ev st2) t _ _ Hd Hok' Hf' Hn Hpf S2 Hw Hex' Hsz) as (ev' & Hev' & Hcase).
    cbn [set_consts m_expr] in Hcase. rewrite <- Ee in Hcase.
    destruct (proj1 Hl (predictions C d (with_consts e cs) t)) as [l1 El1]; [unfold predictions; rewrite map_length, seq_length; auto|].
    rewrite El1 in Hcase.
    assert (Hready : forall m', m_plan m' = m_plan m -> nodes (m_expr m') = nodes e -> List.length (consts (m_expr m')) = List.length (consts e) ->
      opt_safe C Seen d m' ev' (cs_grad st2) t).
    { intros m' P1 P2 P3. destruct Hok as [K1 K2]. destruct Hf as (F1 & F2 & F3). split; auto.
      - split; [unfold represents; rewrite P2; exact K1|rewrite P3; exact K2].
      - unfold fits_u16. rewrite P3. auto.
      - unfold plan_fresh. rewrite P1, P2, P3. exact Hp'.
      - rewrite P2. exact Hse. }
    assert (Hfail : exists r'0 m' ev'' gc' nb' improved evals0,
      Ok (r', mkMember (m_id m) (m_parent m) (m_birth m) (with_consts (with_consts e cs) (consts e)) (m_plan m)
            (Nat.min (ec_umax C) (cost (ec_size C) t)) (m_loss m) (m_cost m), ev', cs_grad st2, nb, false, evals) = Ok (r'0, m', ev'', gc', nb', improved, evals0)
      /\ Post m' ev'' gc' nb' improved).
    { do 7 eexists. split; [reflexivity|]. unfold Post. do 6 (split; [reflexivity|]). split; [discriminate|].
      split; [intros _; cbn; auto 10|]. apply Hready; reflexivity. }
    destruct Hcase as [[_ E]|[Hcpl E]].
    + rewrite E. cbn [bind negb set_eval m_id m_parent m_plan m_expr m_complexity set_consts]. rewrite <- Ee. exact Hfail.
    + destruct (ffinite (ec_F C) l1) eqn:Ef1; rewrite E; cbn [bind negb set_eval m_id m_parent m_plan m_expr m_complexity set_consts];
        rewrite <- ?Ee; [|exact Hfail].
      assert (DL1 : data_loss C d (with_consts e cs) t l1) by (split; auto).
      do 7 eexists. split; [reflexivity|]. unfold Post. unfold set_birth, set_eval, set_consts. cbn [m_id m_parent m_plan m_expr m_complexity m_loss m_cost m_birth]. rewrite <- ?Ee.
      do 5 (split; [reflexivity|]). split; [exact Hcl|]. split.
      * intros _. split; [|auto]. exists l0, l1, bf. split; auto. split; auto. split; [cbn; rewrite Ecs; exact HV|]. auto.
      * split; [discriminate|]. apply Hready; auto.
  - do 7 eexists. split; [reflexivity|]. unfold Post. rewrite <- Ee. do 6 (split; [reflexivity|]). split; [discriminate|].
    split; [intros _; auto 10|]. split; auto; rewrite <- ?Ee; auto.
Qed.

(** With a hash that tells the formula apart the values are losses. *)
Definition loss_at {T W} (C : eval_cfg T) (OC : opt_cfg T W) (d : dataset T) (e : expr T) (t : tree) (cs : list T) (a : W) : Prop :=
  exists l, data_loss C d (with_consts e cs) t l /\ a = to_w OC l (finf (oc_F OC)).
Lemma losses_available {T W} (C : eval_cfg T) (OC : opt_cfg T W) Seen d m ev gc t : opt_ready C Seen d m ev gc t ->
  forall cs gc dl, List.length cs = List.length (consts (m_expr m)) -> grad_reach (ec_F C) (ec_O C) (ec_hash C) (ec_D C) Seen gc -> d_rows gc = ds_n_rows d ->
    List.length dl = ds_n_rows d -> exists gc' dl' v, loss_and_grad C OC (with_consts (m_expr m) cs) d gc dl = Ok (gc', dl', v)
      /\ grad_reach (ec_F C) (ec_O C) (ec_hash C) (ec_D C) Seen gc' /\ d_rows gc' = ds_n_rows d /\ List.length dl' = ds_n_rows d
      /\ forall a g, v = Some (a, g) -> loss_at C OC d (m_expr m) t cs a /\ List.length g = List.length cs.
Proof.
  intros [[Hd Hn Hok Hf Hp Hev Hgc Hgr Hse Hw Hsz Hl] Hh] cs gc0 dl H1 H2 H3 H4.
  destruct (loss_and_grad_spec C OC d (m_expr m) t Hd Hn Hok Hf Seen Hse Hl cs gc0 dl Hh H1 H2 H3 H4) as (gc' & dl' & v & E & G1 & G2 & G3 & G4).
  exists gc', dl', v. split; auto. split; auto. split; auto. split; auto. intros a g Ev. destruct (G4 a g Ev) as (l & L1 & L2 & _ & ->).
  split; [exists l; auto|]. now rewrite map_length, seq_length.
Qed.

(** It never panics; the identity, the tree shape and the plan never change. On success the new constants have, on the
    dataset given, a loss strictly below that of the old ones, and the stored loss, cost and complexity are those of the
    new constants; on failure constants, birth, loss and cost are as before. The buffers stay usable. *)
Theorem C32_optimize_constants : forall (T W : Type) (C : eval_cfg T) (OC : opt_cfg T W) Seen (r : rng W) m d bl ev gc nb t,
  opt_ready C Seen d m ev gc t -> (forall w, fltb (oc_F OC) (finf (oc_F OC)) w = false) -> (forall w, fltb (oc_F OC) w w = false) ->
  exists r' m' ev' gc' nb' improved evals,
    optimize_constants C OC r m d bl ev gc nb = Ok (r', m', ev', gc', nb', improved, evals)
    /\ m_id m' = m_id m /\ m_parent m' = m_parent m /\ m_plan m' = m_plan m /\ nodes (m_expr m') = nodes (m_expr m)
    /\ var_names (m_expr m') = var_names (m_expr m) /\ List.length (consts (m_expr m')) = List.length (consts (m_expr m))
    /\ (improved = true ->
          (exists l0 l1, data_loss C d (m_expr m) t l0 /\ data_loss C d (m_expr m') t l1
             /\ fltb (oc_F OC) (to_w OC l1 (finf (oc_F OC))) (to_w OC l0 (finf (oc_F OC))) = true
             /\ m_loss m' = l1
             /\ m_cost m' = loss_to_cost (ec_F C) (ec_LO C) l1 (m_complexity m') (ec_parsimony C) (ec_use_baseline C) bl)
          /\ m_complexity m' = Nat.min (ec_umax C) (cost (ec_size C) t)
          /\ m_birth m' = nb /\ nb' = S nb)
    /\ (improved = false -> consts (m_expr m') = consts (m_expr m) /\ m_birth m' = m_birth m /\ m_loss m' = m_loss m
          /\ m_cost m' = m_cost m /\ nb' = nb
          /\ (m_complexity m' = m_complexity m \/ m_complexity m' = Nat.min (ec_umax C) (cost (ec_size C) t)))
    /\ opt_ready C Seen d m' ev' gc' t.
Proof.
  intros T W C OC Seen r m d bl ev gc nb t [R Hh] Hinf Hirr. pose proof R as [Hd Hn Hok Hf Hp Hev Hgc Hgr Hse Hw Hsz Hl].
  destruct (optimize_generic T W C OC Seen r m d bl ev gc nb t (loss_at C OC d (m_expr m) t) R Hinf Hirr (losses_available C OC Seen d m ev gc t (conj R Hh)))
    as (r' & m' & ev' & gc' & nb' & imp & k & E & K1 & K2 & K3 & K4 & K5 & K6 & K7 & K8 & K9).
  exists r', m', ev', gc', nb', imp, k. split; auto. do 6 (split; auto). split.
  - intros Hi. destruct (K7 Hi) as ((l0 & l1 & a & D0 & D1 & (l & Dl & ->) & Hlt & Q1 & Q2) & Q3). split; auto. exists l0, l1. split; auto. split; auto. split; auto.
    assert (l1 = l) as ->; [|exact Hlt]. assert (Em : with_consts (m_expr m) (consts (m_expr m')) = m_expr m').
    { destruct (m_expr m') as [ns cs vn], (m_expr m) as [ns0 cs0 vn0]. cbn in *. subst. reflexivity. }
    rewrite Em in Dl. destruct D1 as (_ & A & _), Dl as (_ & B & _). congruence.
  - split; auto. split; auto. rewrite K4. exact Hh.
Qed.

(** Whatever the hash: it never panics and the buffers stay usable, if only proper formulas ever use the context. *)
Theorem C32_never_panics : forall (T W : Type) (C : eval_cfg T) (OC : opt_cfg T W) Seen (r : rng W) m d bl ev gc nb t,
  opt_safe C Seen d m ev gc t -> (forall ns, Seen ns -> sane (ec_O C) ns) ->
  (forall w, fltb (oc_F OC) (finf (oc_F OC)) w = false) -> (forall w, fltb (oc_F OC) w w = false) ->
  exists r' m' ev' gc' nb' improved evals,
    optimize_constants C OC r m d bl ev gc nb = Ok (r', m', ev', gc', nb', improved, evals) /\ opt_safe C Seen d m' ev' gc' t.
Proof.
  intros T W C OC Seen r m d bl ev gc nb t R Hsane Hinf Hirr. pose proof R as [Hd Hn Hok Hf Hp Hev Hgc Hgr Hse Hw Hsz Hl].
  destruct (optimize_generic T W C OC Seen r m d bl ev gc nb t (fun _ _ => True) R Hinf Hirr) as (r' & m' & ev' & gc' & nb' & imp & k & E & K).
  { intros cs gc0 dl H1 H2 H3 H4. destruct (loss_and_grad_any C OC d (m_expr m) t Hd Hn Hok Hf Seen Hse Hl cs gc0 dl Hsane H1 H2 H3 H4) as (gc' & dl' & v & E & G1 & G2 & G3 & G4).
    exists gc', dl', v. split; auto. split; auto. split; auto. split; auto. intros a g Ev. split; eauto. }
  exists r', m', ev', gc', nb', imp, k. split; auto. apply K.
Qed.

(** If the conversion to f64 respects the order and the member's stored loss is its loss on this dataset, the stored loss
    strictly decreases on success and never increases. *)
Theorem C32_stored_loss_decreases : forall (T W : Type) (C : eval_cfg T) (OC : opt_cfg T W) Seen (r : rng W) m d bl ev gc nb t r' m' ev' gc' nb' improved evals,
  opt_ready C Seen d m ev gc t -> (forall w, fltb (oc_F OC) (finf (oc_F OC)) w = false) -> (forall w, fltb (oc_F OC) w w = false) ->
  (forall a b, ffinite (ec_F C) a = true -> ffinite (ec_F C) b = true ->
     fltb (oc_F OC) (to_w OC a (finf (oc_F OC))) (to_w OC b (finf (oc_F OC))) = fltb (ec_F C) a b) ->
  data_loss C d (m_expr m) t (m_loss m) ->
  optimize_constants C OC r m d bl ev gc nb = Ok (r', m', ev', gc', nb', improved, evals) ->
  data_loss C d (m_expr m') t (m_loss m')
  /\ (improved = true -> fltb (ec_F C) (m_loss m') (m_loss m) = true) /\ (improved = false -> m_loss m' = m_loss m).
Proof.
  intros T W C OC Seen r m d bl ev gc nb t r' m' ev' gc' nb' improved evals R Hinf Hirr Hemb DL E.
  destruct (C32_optimize_constants T W C OC Seen r m d bl ev gc nb t R Hinf Hirr)
    as (r1 & m1 & ev1 & gc1 & nb1 & i1 & n1 & E1 & _ & _ & _ & K1 & K2 & _ & K & K3 & _).
  rewrite E1 in E. injection E as <- <- <- <- <- <- <-. destruct i1.
  - destruct (K eq_refl) as ((l0 & l1 & D0 & D1 & Hlt & -> & _) & _). split; auto. split; [|discriminate]. intros _.
    assert (l0 = m_loss m) as -> by (destruct D0 as (_ & A & _), DL as (_ & B & _); congruence).
    rewrite Hemb in Hlt; auto; [apply D1|apply DL].
  - destruct (K3 eq_refl) as (Hc & _ & Hlo & _). rewrite Hlo. split; [|split; [discriminate|auto]].
    assert (m_expr m1 = m_expr m) as -> by (destruct (m_expr m1), (m_expr m); cbn in *; congruence). exact DL.
Qed.

(** The gradient handed to the minimiser is the chain rule applied to the derivative of the loss and the derivative of the
    expression with respect to each constant (the formal derivative of C09), and the value beside it is the loss. *)
Theorem C32_gradient : forall (T W : Type) (C : eval_cfg T) (OC : opt_cfg T W) Seen m d ev gc dl t gc' dl' v g,
  opt_ready C Seen d m ev gc t -> List.length dl = ds_n_rows d ->
  loss_and_grad C OC (m_expr m) d gc dl = Ok (gc', dl', Some (v, g)) ->
  exists l, data_loss C d (m_expr m) t l /\ v = to_w OC l (finf (oc_F OC))
    /\ lf_dloss (ec_loss C) (predictions C d (m_expr m) t) (ds_y d) (ds_weights d) dl = Ok dl'
    /\ List.length g = List.length (consts (m_expr m))
    /\ forall ci, ci < List.length (consts (m_expr m)) ->
       nth_error g ci = Some (to_w OC (fold_left (fun a r => fadd (ec_F C) a r)
          (map (fun r => fmul (ec_F C) (nth r dl' (fzero (ec_F C))) (grad_comp (ec_F C) (ec_O C) (m_expr m) (ds_x d) false t ci r))
               (seq 0 (ds_n_rows d))) (fzero (ec_F C))) (finf (oc_F OC))).
Proof.
  intros T W C OC Seen m d ev gc dl t gc' dl' v g [[Hd Hn Hok Hf Hp Hev Hgc Hgr Hse Hw Hsz Hl] Hh] Hdl E.
  set (e := m_expr m) in *.
  assert (Hwe : with_consts e (consts e) = e) by (destruct e; reflexivity).
  destruct (loss_and_grad_spec C OC d e t Hd Hn Hok Hf Seen Hse Hl (consts e) gc dl Hh eq_refl Hgc Hgr Hdl) as (gc1 & dl1 & v1 & E1 & _ & _ & Hdl1 & K).
  rewrite Hwe in *. rewrite E in E1. injection E1 as <- <- <-. destruct (K v g eq_refl) as (l & K1 & K2 & K3 & ->).
  exists l. split; auto. split; auto. split; auto. split; [rewrite map_length, seq_length; auto|].
  intros ci Hci. change (nth_error (map ?f (seq 0 ?n)) ci) with (nth_error (tab n f) ci). rewrite tab_nth by auto. unfold chain_rule. do 2 f_equal. clear - Hdl1.
  set (G := grad_comp _ _ _ _ _ _ _). set (z := fzero (ec_F C)).
  assert (H : forall n dl0 k acc, List.length dl0 = n -> (forall r, r < n -> nth r dl0 z = nth (k + r) dl' z) ->
    fold_left (fun a q => fadd (ec_F C) a (fmul (ec_F C) (fst q) (snd q))) (combine dl0 (map G (seq k n))) acc
    = fold_left (fun a r => fadd (ec_F C) a r) (map (fun r => fmul (ec_F C) (nth r dl' z) (G r)) (seq k n)) acc).
  { induction n as [|n IH]; intros [|x dl0] k a Hl Hx; try discriminate; cbn; auto. cbn in Hl.
    rewrite IH; auto.
    - specialize (Hx 0 ltac:(lia)). cbn in Hx. rewrite Nat.add_0_r in Hx. rewrite Hx. reflexivity.
    - intros r Hr. specialize (Hx (S r) ltac:(lia)). cbn in Hx. rewrite Hx. f_equal. lia. }
  apply H; auto.
Qed.

(** ** A case: x0 + c0 with c0 = 0, squared error; the best constant is 11/4, and Newton finds it. *)

Definition shift_tree : tree := TOp 0 [TVar 0; TConst 0].
Definition shift_expr (c : xq) : expr xq := mkExpr [Var 0; Const 0; Op 2 0] [c] [].
Definition opt_cfg_e : eval_cfg xq :=
  mkEvalCfg xqops xq_loss_ops (rational_ops xqops) (hash_at [Var 0; Const 0; Op 2 0]) (u16_max + 1) 2
    (mkSizeOpts 1 1 None [] 10 [] []) (make_loss xqops xq_loss_ops LMse) (XF (1 # 10)) true.
Definition opt_cfg_o (restarts : nat) : opt_cfg xq xq :=
  mkOptCfg xqops xq_opt_ops (fun x => Some x) (fun x => Some x) true 2 0 restarts (XF (1 # 100000000)) default_bt.
Example C32_case : exists p,
  let m := mkMember 7 None 0 (shift_expr (XF 0)) p 3 (XF (37 # 4)) (XF 1) in
  opt_ready opt_cfg_e (fun _ => True) demo_data m (evaluator_new xqops 3) (dctx_new xqops 3) shift_tree
  /\ (forall w, fltb xqops (XInf false) w = false) /\ (forall w, fltb xqops w w = false)
  /\ (exists l, data_loss opt_cfg_e demo_data (shift_expr (XF 0)) shift_tree l /\ (xval l == 37 # 4)%Q)
  /\ exists r' ev' gc' c l k,
       optimize_constants opt_cfg_e (opt_cfg_o 1) (mkRng (fun _ => 0) (fun _ => XF 0)) m demo_data None (evaluator_new xqops 3) (dctx_new xqops 3) 5
       = Ok (r', mkMember 7 None 5 (shift_expr c) p 3 l k, ev', gc', 6, true, 11) /\ (xval c == 11 # 4)%Q /\ (xval l == 27 # 16)%Q.
Proof.
  eexists. cbn zeta. split; [|split; [|split; [|split]]].
  - split; [split|apply hash_at_told_apart].
    + split; [|split; [|split; [|split]]]; try reflexivity. intros w [= <-]. reflexivity.
    + cbn. lia.
    + split; [reflexivity|cbn; auto with arith].
    + unfold fits_u16. cbn. unfold u16_max. lia.
    + vm_compute. reflexivity.
    + split; reflexivity.
    + constructor.
    + reflexivity.
    + exact I.
    + constructor; cbn; try (unfold u16_max; lia); try discriminate.
    + cbn. unfold u16_max. lia.
    + apply (make_loss_total xqops xq_loss_ops LMse); [|reflexivity]. split; [|split; [|split; [|split]]]; try reflexivity. intros w [= <-]. reflexivity.
  - intros [| |]; reflexivity.
  - apply (ol_irr _ xq_order_laws).
  - eexists. split.
    + split; [|split].
      * split; [|discriminate]. intros [|[|[|r]]] Hr; cbn in Hr; try lia; reflexivity.
      * vm_compute. reflexivity.
      * reflexivity.
    + reflexivity.
  - do 6 eexists. split; [vm_compute; reflexivity|]. split; reflexivity.
Qed.
Print Assumptions C32_optimize_constants.
Print Assumptions C32_never_panics.
Print Assumptions C32_stored_loss_decreases.
Print Assumptions C32_gradient.
