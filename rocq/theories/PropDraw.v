(** Properties C29 and C43, continued: the draw of a mutation in binary64. *)
From Coq Require Import QArith SpecFloat.
From Verif Require Import Base BaseLemmas Node Tree NodeProofs Rng Num Instances Selection PropSelection Conditioning PropConditioning PropPanic PropLive.
Local Open Scope nat_scope.
From Coq Require Import Reals Lra Lia Classical_Prop.
From Flocq Require Import Core IEEE754.BinarySingleNaN.
From Verif Require Import Ieee PropIeee PropNonneg.
Local Open Scope R_scope.

Local Notation V := (@B2R 53 1024).
Local Notation S := (@B2SF 53 1024).

(** The loop finds no index and falls through. *)
Fixpoint falls {W} (F : FloatOps W) (ws : list W) (target : W) : bool :=
  match ws with
  | [] => true
  | w :: ws' => if fleb F w (fzero F) then falls F ws' target else if fltb F target w then false else falls F ws' (fsub F target w)
  end.
Lemma falls_pick {W} (F : FloatOps W) ws : forall idx target last,
  (falls F ws target = true -> pick_weight F ws idx target last = last)
  /\ (falls F ws target = false -> exists w, nth_error ws (pick_weight F ws idx target last - idx) = Some w /\ (idx <= pick_weight F ws idx target last)%nat /\ fleb F w (fzero F) = false).
Proof.
  induction ws as [|w ws IH]; intros idx target last; cbn [falls pick_weight]; [split; [auto|discriminate]|].
  assert (Sh : forall t, falls F ws t = false -> exists w0, nth_error (w :: ws) (pick_weight F ws (Datatypes.S idx) t last - idx) = Some w0 /\ (idx <= pick_weight F ws (Datatypes.S idx) t last)%nat /\ fleb F w0 (fzero F) = false).
  { intros t Ht. destruct (IH (Datatypes.S idx) t last) as [_ H]. destruct (H Ht) as (w0 & H1 & H2 & H3). exists w0.
    replace (pick_weight F ws (Datatypes.S idx) t last - idx)%nat with (Datatypes.S (pick_weight F ws (Datatypes.S idx) t last - Datatypes.S idx)) by lia. split; [exact H1|]. split; [lia|exact H3]. }
  destruct (fleb F w (fzero F)) eqn:E0.
  - split; [apply IH|apply Sh].
  - destruct (fltb F target w); [split; [discriminate|]|split; [apply IH|apply Sh]].
    intros _. exists w. rewrite Nat.sub_diag. split; [reflexivity|]. split; [lia|exact E0].
Qed.

(** A larger target falls through if a smaller one does: rounding is monotone. *)
Lemma falls_mono ws : Forall (fun w : f64 => is_finite w = true) ws -> forall t u : f64, is_finite t = true -> is_finite u = true -> 0 <= V t <= V u ->
  falls F64 ws t = true -> falls F64 ws u = true.
Proof.
  induction 1 as [|w ws Hw Hws IH]; intros t u Ht Hu Hle; cbn [falls]; auto.
  destruct (fleb F64 w (fzero F64)) eqn:E0; [apply IH; auto|].
  assert (Hp : 0 < V w). { destruct (Rlt_le_dec 0 (V w)) as [H|H]; auto. exfalso. assert (fleb F64 w (fzero F64) = true); [|congruence]. apply (le_fin 53 1024 prec64 max64); auto. }
  destruct (fltb F64 t w) eqn:Et; [discriminate|].
  assert (Htw : V w <= V t). { destruct (Rle_lt_dec (V w) (V t)) as [H|H]; auto. exfalso. assert (fltb F64 t w = true); [|congruence]. apply (lt_fin 53 1024 prec64 max64); auto. }
  assert (Eu : fltb F64 u w = false). { destruct (fltb F64 u w) eqn:E; auto. apply (lt_fin 53 1024 prec64 max64) in E; auto. lra. }
  rewrite Eu. assert (Sub : forall x : f64, is_finite x = true -> V w <= V x -> is_finite (fsub F64 x w) = true /\ V (fsub F64 x w) = rnd 53 1024 (V x - V w) /\ 0 <= rnd 53 1024 (V x - V w)).
  { intros x Hx Hwx. pose proof (r_pos 53 1024 prec64 (V x - V w) ltac:(lra)) as H0. pose proof (rnd_le 53 1024 prec64 (V x - V w) (V x) ltac:(lra)) as H1. rewrite rnd_val in H1.
    pose proof (val_top 53 1024 x) as Hb. destruct (sub_fin 53 1024 prec64 max64 x w Hx Hw) as [(_ & A & B)|(A & _)]; [auto|]. rewrite Rabs_pos_eq in A by exact H0. lra. }
  destruct (Sub t Ht Htw) as (T1 & T2 & T3). destruct (Sub u Hu ltac:(lra)) as (U1 & U2 & U3). apply IH; auto. rewrite T2, U2. split; [exact T3|]. apply rnd_le; [exact prec64|lra].
Qed.

(** ** From Flocq's floats to the model's *)
Lemma same_le x y : fleb F64 x y = fleb f64ops (S x) (S y).
Proof. reflexivity. Qed.
Lemma falls_same ws : forall t, falls F64 ws t = falls f64ops (map S ws) (S t).
Proof.
  induction ws as [|w ws IH]; intros t; cbn [falls map]; auto. rewrite same_le. change (S (fzero F64)) with (fzero f64ops).
  destruct (fleb f64ops (S w) (fzero f64ops)); [apply IH|]. assert (El : fltb F64 t w = fltb f64ops (S t) (S w)) by apply (bops_lt 53 1024 prec64 max64). rewrite El. destruct (fltb f64ops (S t) (S w)); auto.
  rewrite IH. do 2 f_equal. apply (bops_sub 53 1024 prec64 max64).
Qed.
Lemma sum_same ws : forall t, sum_weights f64ops (map S ws) (S t) = match sum_weights F64 ws t with Ok x => Ok (S x) | Panic => Panic | OutOfFuel => OutOfFuel end.
Proof.
  induction ws as [|w ws IH]; intros t; cbn [sum_weights map]; auto.
  assert (E1 : ffinite F64 w = ffinite f64ops (S w)) by apply (bops_finite 53 1024 prec64 max64). assert (E2 : fltb F64 w (fzero F64) = fltb f64ops (S w) (fzero f64ops)) by apply (bops_lt 53 1024 prec64 max64).
  rewrite E1, E2. destruct (_ || _); auto. rewrite <- IH. f_equal. symmetry. apply (bops_add 53 1024 prec64 max64).
Qed.
Lemma sum_finite ws : forall t t' : f64, sum_weights F64 ws t = Ok t' -> Forall (fun w : f64 => is_finite w = true) ws.
Proof.
  induction ws as [|w ws IH]; intros t t'; cbn [sum_weights]; [constructor|]. destruct (negb (ffinite F64 w) || fltb F64 w (fzero F64))%bool eqn:E; [discriminate|]. intros H.
  constructor; [|eapply IH; eauto]. apply orb_false_iff in E as [E _]. apply negb_false_iff in E. exact E.
Qed.

(** The largest number below 1. *)
Definition below_one : f64 := binary_normalize 53 1024 prec64 max64 mode_NE 9007199254740991 (-53) false.
Lemma below_one_val : is_finite below_one = true /\ V below_one = 1 - bpow radix2 (-53).
Proof.
  split; [vm_compute; reflexivity|]. rewrite <- SF2R_B2SF. replace (S below_one) with (S754_finite false 9007199254740991 (-53)) by (vm_compute; reflexivity).
  cbn -[bpow]. unfold F2R. cbn [Fnum Fexp]. replace (IZR 9007199254740991) with (bpow radix2 53 - 1) by (cbn; lra).
  rewrite Rmult_minus_distr_r, <- bpow_plus. cbn -[bpow]. change (bpow radix2 0) with 1. lra.
Qed.
Lemma below_one_max (x : f64) : V x < 1 -> V x <= V below_one.
Proof.
  intros H. destruct below_one_val as [_ ->]. assert (Hf : generic_format radix2 (SpecFloat.fexp 53 1024) (bpow radix2 0)).
  { apply generic_format_bpow. cbn. lia. }
  pose proof (fexp_correct 53 1024 prec64) as Hv.
  assert (Hp : V x <= pred radix2 (SpecFloat.fexp 53 1024) (bpow radix2 0)) by (apply pred_ge_gt; [exact Hv|apply generic_format_B2R|exact Hf|exact H]).
  rewrite pred_bpow in Hp. exact Hp.
Qed.

(** A positive weight is found for every draw if one is found for the largest. *)
Lemma draw_found (ws : list f64) (total u : f64) : sum_weights F64 ws (fzero F64) = Ok total -> is_finite total = true -> 0 < V total -> is_finite u = true -> 0 <= V u < 1 ->
  falls F64 ws (fmul F64 below_one total) = false -> falls F64 ws (fmul F64 u total) = false.
Proof.
  intros Es Ht Hp Hu Hv Hf. destruct (falls F64 ws (fmul F64 u total)) eqn:E; auto. rewrite <- Hf. symmetry. destruct below_one_val as [B1 _]. pose proof (below_one_max u ltac:(lra)) as Hm.
  assert (Hb : V below_one < 1). { destruct below_one_val as [_ ->]. pose proof (bpow_gt_0 radix2 (-53)). lra. }
  assert (Mul : forall x : f64, is_finite x = true -> 0 <= V x < 1 -> is_finite (fmul F64 x total) = true /\ V (fmul F64 x total) = rnd 53 1024 (V x * V total) /\ 0 <= rnd 53 1024 (V x * V total)).
  { intros x Hx Hx1. pose proof (r_pos 53 1024 prec64 (V x * V total) ltac:(apply Rmult_le_pos; lra)) as H0. assert (Hle : V x * V total <= V total) by nra.
    pose proof (rnd_le 53 1024 prec64 _ _ Hle) as H1. rewrite rnd_val in H1. pose proof (val_top 53 1024 total) as Hb'.
    destruct (mul_fin 53 1024 prec64 max64 x total Hx Ht) as [(_ & A & B)|(A & _)]; [auto|]. rewrite Rabs_pos_eq in A by exact H0. lra. }
  destruct (Mul u Hu Hv) as (U1 & U2 & U3). destruct (Mul below_one B1 ltac:(lra)) as (W1 & W2 & W3).
  apply (falls_mono ws (sum_finite ws _ _ Es) (fmul F64 u total) (fmul F64 below_one total)); auto. rewrite U2, W2. split; [exact U3|]. apply rnd_le; [exact prec64|]. nra.
Qed.

Definition positive_weight (ws : list spec_float) (i : nat) : Prop := exists w, nth_error ws i = Some w /\ fleb f64ops w (fzero f64ops) = false.

(** C29 in binary64: for given weights (binary64 numbers), if the largest draw, 1 - 2^-53, leads to an index of positive weight then every draw does. The fall-through of
    C29_zero_weight_refuted is thus a matter of one draw per list of weights. *)
Theorem C29_largest_draw : forall (r0 r : rng spec_float) (ws0 : list f64) (u : f64) i r0', let ws := map S ws0 in
  rg_real r0 0 = S below_one -> rg_real r 0 = S u -> is_finite u = true -> 0 <= B2R u < 1 ->
  weighted_index f64ops r0 ws = Ok (i, r0') -> positive_weight ws i ->
  exists j r', weighted_index f64ops r ws = Ok (j, r') /\ positive_weight ws j.
Proof.
  intros r0 r ws0 u i r0' ws H0 Hr Hu Hv E Hi. unfold ws in *. clear ws. unfold weighted_index in *. destruct ws0 as [|w0 ws1]; [discriminate|]. set (ws0 := w0 :: ws1) in *.
  assert (Es : forall (A : Type) (a b : A), match map S ws0 with [] => a | _ :: _ => b end = b) by reflexivity.
  rewrite Es in E. rewrite Es. clear Es. change (fzero f64ops) with (S (fzero F64)) in E at 1. change (fzero f64ops) with (S (fzero F64)) at 1. rewrite sum_same in E. rewrite sum_same.
  destruct (sum_weights F64 ws0 (fzero F64)) as [total| |] eqn:Et; try discriminate. cbn [bind] in *.
  destruct (negb (ffinite f64ops (S total)) || fleb f64ops (S total) (fzero f64ops))%bool eqn:Ec; [discriminate|].
  unfold rng_real in *. rewrite H0 in E. rewrite Hr. eexists _, _. split; [reflexivity|].
  apply orb_false_iff in Ec as [Ec1 Ec2]. apply negb_false_iff in Ec1. change (ffinite f64ops (S total)) with (is_finite_SF (S total)) in Ec1 || idtac.
  assert (Ft : is_finite total = true) by (destruct total; try discriminate Ec1; reflexivity).
  assert (Hp : 0 < V total). { destruct (Rlt_le_dec 0 (V total)) as [H|H]; auto. exfalso. assert (H1 : fleb F64 total (fzero F64) = true) by (apply (le_fin 53 1024 prec64 max64); auto). rewrite same_le in H1. change (S (fzero F64)) with (fzero f64ops) in H1. congruence. }
  assert (M : forall x, fmul f64ops (S x) (S total) = S (fmul F64 x total)) by (intros x; symmetry; apply (bops_mul 53 1024 prec64 max64)). rewrite M in E. rewrite M.
  injection E as E _.
  destruct (falls F64 ws0 (fmul F64 u total)) eqn:Ef.
  - assert (Eb : falls F64 ws0 (fmul F64 below_one total) = true). { destruct (falls F64 ws0 (fmul F64 below_one total)) eqn:Eb; auto. rewrite <- Ef. symmetry. apply draw_found; auto. }
    rewrite falls_same in Ef, Eb. destruct (falls_pick f64ops (map S ws0) 0 (S (fmul F64 u total)) (List.length (map S ws0) - 1)) as [Hu1 _]. destruct (falls_pick f64ops (map S ws0) 0 (S (fmul F64 below_one total)) (List.length (map S ws0) - 1)) as [Hb1 _].
    rewrite (Hu1 Ef). assert (Ei : i = (List.length (map S ws0) - 1)%nat) by (rewrite <- E; exact (Hb1 Eb)). rewrite <- Ei. exact Hi.
  - rewrite falls_same in Ef. destruct (falls_pick f64ops (map S ws0) 0 (S (fmul F64 u total)) (List.length (map S ws0) - 1)) as [_ H]. destruct (H Ef) as (w & Hw & _ & Hw0). rewrite Nat.sub_0_r in Hw. exists w. auto.
Qed.
Print Assumptions C29_largest_draw.

(** ** The default weights *)
Definition largest : spec_float := S754_finite false 9007199254740991 (-53).
Lemma largest_below : S below_one = largest. Proof. vm_compute. reflexivity. Qed.
Definition found (w : weights spec_float) : bool :=
  let ws := map snd (choices w) in
  forallb (SpecFloat.valid_binary 53 1024) ws
  && match weighted_index f64ops (mkRng (fun _ => 0%nat) (fun _ => largest)) ws with
     | Ok (i, _) => match nth_error ws i with Some x => negb (fleb f64ops x (fzero f64ops)) | None => false end
     | _ => false
     end.
Lemma default_found : every found f64ops f64_of_nat default_weights = true.
Proof. vm_compute. reflexivity. Qed.
Lemma valid_list l : forallb (SpecFloat.valid_binary 53 1024) l = true -> exists l', l = map S l'.
Proof.
  induction l as [|x l IH]; cbn [forallb]; intros H; [exists []; reflexivity|]. apply andb_true_iff in H as [Hx H]. destruct (IH H) as (l' & ->).
  exists (SF2B (prec := 53) (emax := 1024) x Hx :: l'). cbn [map]. rewrite B2SF_SF2B. reflexivity.
Qed.

(** C43 in binary64: with the default weights the mutation drawn is always one that applies and has a positive weight, whatever the expression, its complexity, the options,
    the size limit, the number of features and the number drawn. (For other weights it can be [Optimize] with weight zero: C43_zero_weight_refuted.) *)
Theorem C43_default_weights : forall (T : Type) (r : rng spec_float) (u : f64) (e : expr T) t complexity o curmaxsize nfeatures,
  represents e t -> (consts e = [] <-> ~ contains_constant t) -> rg_real r 0 = S u -> is_finite u = true -> 0 <= B2R u < 1 ->
  let w' := condition_mutation_weights f64ops f64_of_nat default_weights e complexity o curmaxsize nfeatures in
  exists c r', sample_mutation f64ops r w' = Ok (c, r') /\ fltb f64ops (fzero f64ops) (weight_of c w') = true /\ applicable f64ops o t complexity curmaxsize nfeatures c.
Proof.
  intros T r u e t cx o cur nf Hrep Hused Hr Hu Hv w'.
  assert (Hf : found w' = true). { unfold w'. destruct (conditioned_all f64ops f64_of_nat default_weights e cx o cur nf) as (b1 & b2 & b3 & b4 & b5 & b6 & b7 & k & Hk & ->). exact (every_in found f64ops f64_of_nat default_weights default_found b1 b2 b3 b4 b5 b6 b7 k Hk). }
  destruct (C43_conditioning f64ops f64_of_nat default_weights e t cx o cur nf Hrep Hused) as (_ & _ & _ & Hna & Hml & Hmo). pose proof (C49_default_weights T e cx o cur nf) as Hdr. fold w' in Hna, Hml, Hmo, Hdr. clearbody w'.
  unfold found in Hf. cbv zeta in Hf. apply andb_true_iff in Hf as [Hval Hf]. destruct (valid_list _ Hval) as (ws0 & Ews). rewrite Ews in Hf.
  destruct (weighted_index f64ops _ (map S ws0)) as [[i r0']| |] eqn:E0 in Hf; try discriminate.
  destruct (nth_error (map S ws0) i) as [x|] eqn:Ex; [|discriminate]. apply negb_true_iff in Hf.
  destruct (C29_largest_draw (mkRng (fun _ => 0%nat) (fun _ => largest)) r ws0 u i r0' (eq_sym largest_below) Hr Hu Hv E0) as (j & r' & Ej & y & Ey & Py); [exists x; auto|].
  rewrite <- Ews in Ej, Ey. rewrite nth_error_map in Ey. destruct (nth_error (choices w') j) as [[c y']|] eqn:En; [|discriminate]. cbn [option_map snd] in Ey. injection Ey as ->.
  exists c, r'. unfold sample_mutation. rewrite Ej. cbn [bind]. unfold index. rewrite En. cbn [expect bind fst]. split; [reflexivity|].
  pose proof (choices_weight _ _ _ _ En) as ->. split.
  - assert (Hin : In (weight_of c w') (map S ws0)). { rewrite <- Ews. apply in_map_iff. exists (c, weight_of c w'). split; auto. eapply nth_error_In; eauto. }
    rewrite <- Ews in Hin. destruct Hdr as (_ & Hdr & _). rewrite Forall_forall in Hdr. destruct (Hdr _ Hin) as [Hfin Hneg].
    revert Hfin Hneg Py. clear. destruct (weight_of c w') as [s|[]| |[] m q]; cbn; try discriminate; auto.
  - apply NNPP. intros Hn. destruct (choice_eqb c MutateConstant) eqn:Ec.
    + destruct c; try discriminate. cbn [applicable] in Hn. pose proof (const_leaves_pos t) as Hp. assert (H0 : const_leaves t = 0%nat) by (destruct (const_leaves t); auto; exfalso; apply Hn, Hp; lia).
      rewrite H0 in *. destruct (is_leaf_node (root_node t)) eqn:El.
      * rewrite Hml in Py; [discriminate|]. intros H. apply leaf_operator in H. congruence.
      * apply leaf_operator in El. rewrite (Hmo El) in Py. vm_compute in Py. discriminate.
    + rewrite (Hna c) in Py; [discriminate|intros ->; discriminate|exact Hn].
Qed.

(** x0 * 3.5, one feature, the largest possible draw. *)
Example C43_default_case : let e := mkExpr [Var 0; Const 0; Op 2 5] [f64lit 7 (-1)] [] in
  represents e (TOp 5 [TVar 0; TConst 0]) /\ is_finite below_one = true /\ 0 <= B2R below_one < 1
  /\ match sample_mutation f64ops (mkRng (fun _ => 0%nat) (fun _ => S below_one)) (condition_mutation_weights f64ops f64_of_nat default_weights e 3 (mkCond true true (f64lit 1 (-3))) 20 1) with
     | Ok (c, _) => c = DoNothing | _ => False end.
Proof.
  cbv zeta. split; [reflexivity|]. destruct below_one_val as [H1 H2]. split; [exact H1|]. split.
  - rewrite H2. pose proof (bpow_gt_0 radix2 (-53)). assert (bpow radix2 (-53) < bpow radix2 0) by (apply bpow_lt; lia). cbn -[bpow] in *. change (bpow radix2 0) with 1 in *. lra.
  - rewrite largest_below. vm_compute. reflexivity.
Qed.
(** Of weights 1, 0, 2, 0 the largest draw finds the third. *)
Example C29_largest_case : exists r', weighted_index f64ops (mkRng (fun _ => 0%nat) (fun _ => S below_one)) (map S [lit64 1 0; lit64 0 0; lit64 1 1; lit64 0 0]) = Ok (2%nat, r')
  /\ positive_weight (map S [lit64 1 0; lit64 0 0; lit64 1 1; lit64 0 0]) 2.
Proof.
  eexists. split; [rewrite largest_below; vm_compute; reflexivity|]. eexists. split; [reflexivity|]. vm_compute. reflexivity.
Qed.
Print Assumptions C43_default_weights.
