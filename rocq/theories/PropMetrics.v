(** Property C58: the metrics the web front end shows. *)
From Coq Require Import QArith Reals Lra.
From Verif Require Import Base BaseLemmas Node Tree Compile Eval CompileProofs EvalProofs EvalTop Complexity Num Member PropHof Dataset PropDataset Loss PropLoss RealOps Evolution PropEvolution Search PropSearch Invariant PropWhole PropBest PropPanic Metrics.
Local Open Scope R_scope.

(** ** Specification *)
Definition total (l : list R) : R := fold_right Rplus 0 l.
Definition mean (l : list R) : R := total l / INR (List.length l).
(** [over f a b]: f of corresponding entries; [weigh w l]: products of corresponding entries. *)
Definition over (f : R -> R -> R) (a b : list R) : list R := map (fun q => f (fst q) (snd q)) (combine a b).
Definition weigh (w l : list R) : list R := over Rmult w l.
Definition square (x : R) : R := x * x.
Definition residuals (yhat y : list R) : list R := over Rminus yhat y.
Definition from_ (c : R) (l : list R) : list R := map (fun x => x - c) l.
Definition weighted_mean (w l : list R) : R := if Req_EM_T (total w) 0 then 0 else total (weigh w l) / total w.
(** Pearson's correlation, 0 when one of the lists is constant. *)
Definition pearson (a b : list R) : R :=
  let va := total (map square (from_ (mean a) a)) in let vb := total (map square (from_ (mean b) b)) in
  if Req_EM_T va 0 then 0 else if Req_EM_T vb 0 then 0 else total (weigh (from_ (mean a) a) (from_ (mean b) b)) / (sqrt va * sqrt vb).
(** The coefficient of determination about the centre [c], 0 when the targets all equal it. *)
Definition r_squared (c : R) (yhat y : list R) : R :=
  let sst := total (map square (from_ c y)) in if Req_EM_T sst 0 then 0 else 1 - total (map square (residuals yhat y)) / sst.
Definition weighted_r_squared (w yhat y : list R) : R :=
  let sst := total (weigh w (map square (from_ (weighted_mean w y) y))) in
  if Req_EM_T sst 0 then 0 else 1 - total (weigh w (map square (residuals yhat y))) / sst.

(** ** Sums *)
Lemma fsum_acc l : forall a, fold_left Rplus l a = a + total l.
Proof. induction l as [|x l IH]; intros a; cbn [fold_left total fold_right]; [ring|]. rewrite IH. change (fold_right Rplus 0 l) with (total l). ring. Qed.
Lemma fsum_total l : fsum rops l = total l.
Proof. unfold fsum. cbn [fadd fzero rops]. rewrite fsum_acc. ring. Qed.
Lemma total_nonneg l : Forall (fun x => 0 <= x) l -> 0 <= total l.
Proof. induction 1; cbn [total fold_right]; [lra|]. change (fold_right Rplus 0 l) with (total l). lra. Qed.
Lemma squares_nonneg l : 0 <= total (map square l).
Proof. apply total_nonneg. apply Forall_forall. intros x Hx. apply in_map_iff in Hx as (y & <- & _). unfold square. nra. Qed.
Lemma zip_ok {A B} (a : list A) (b : list B) : List.length a = List.length b -> zip_eq a b = Ok (combine a b).
Proof. intros H. unfold zip_eq. rewrite H, Nat.eqb_refl. reflexivity. Qed.
Lemma zip_bad {A B} (a : list A) (b : list B) : List.length a <> List.length b -> zip_eq a b = Panic.
Proof. intros H. unfold zip_eq. apply Nat.eqb_neq in H. rewrite H. reflexivity. Qed.

(** Cauchy-Schwarz. *)
Lemma cauchy : forall a b, total (weigh a b) * total (weigh a b) <= total (map square a) * total (map square b).
Proof.
  induction a as [|x a IH]; intros b; [cbn; pose proof (squares_nonneg b); nra|]. destruct b as [|y b]; [cbn; pose proof (squares_nonneg a); unfold square; nra|].
  unfold weigh, over in *. cbn [combine map fst snd total fold_right]. specialize (IH b). fold (total (map square a)) (total (map square b)).
  change (fold_right Rplus 0 ?l) with (total l) in *.
  set (S := total (map (fun q => fst q * snd q) (combine a b))) in *. pose proof (squares_nonneg a) as HA. pose proof (squares_nonneg b) as HB.
  set (A := total (map square a)) in *. set (B := total (map square b)) in *. unfold square.
  assert (H : 2 * (x * y) * S <= A * (y * y) + B * (x * x)); [|nra].
  assert (H1 : (2 * (x * y) * S) * (2 * (x * y) * S) <= (A * (y * y) + B * (x * x)) * (A * (y * y) + B * (x * x))).
  { assert (E1 : 4 * ((x * y) * (x * y)) * (S * S) <= 4 * ((x * y) * (x * y)) * (A * B)) by (apply Rmult_le_compat_l; nra).
    pose proof (pow2_ge_0 (A * (y * y) - B * (x * x))). nra. }
  apply Rnot_lt_le. intros Hlt. assert (0 <= A * (y * y) + B * (x * x)) by nra. nra.
Qed.

Section Loops.
Variables (m : R) (yh_mean : R).
Lemma sse_loop : forall z a b, fold_left (fun s q => let r := fsub rops (fst q) (snd q) in let d := fsub rops (snd q) m in
    (fadd rops (fst s) (fmul rops r r), fadd rops (snd s) (fmul rops d d))) z (a, b)
  = (a + total (map (fun q => square (fst q - snd q)) z), b + total (map (fun q => square (snd q - m)) z)).
Proof.
  induction z as [|q z IH]; intros a b; cbn [fold_left map total fold_right]; [f_equal; ring|]. rewrite IH. cbn [fst snd fadd fsub fmul rops].
  change (fold_right Rplus 0 ?l) with (total l). unfold square. f_equal; ring.
Qed.
Lemma wsse_loop : forall z a b, fold_left (fun s q => let r := fsub rops (fst (fst q)) (snd (fst q)) in let d := fsub rops (snd (fst q)) m in
    (fadd rops (fst s) (fmul rops (fmul rops (snd q) r) r), fadd rops (snd s) (fmul rops (fmul rops (snd q) d) d))) z (a, b)
  = (a + total (map (fun q => snd q * square (fst (fst q) - snd (fst q))) z), b + total (map (fun q => snd q * square (snd (fst q) - m)) z)).
Proof.
  induction z as [|q z IH]; intros a b; cbn [fold_left map total fold_right]; [f_equal; ring|]. rewrite IH. cbn [fst snd fadd fsub fmul rops].
  change (fold_right Rplus 0 ?l) with (total l). unfold square. f_equal; ring.
Qed.
Lemma cov_loop : forall z a b c, fold_left (fun s q => let '(cov, vyh, vy) := s in let dyh := fsub rops (fst q) yh_mean in let dy := fsub rops (snd q) m in
    (fadd rops cov (fmul rops dyh dy), fadd rops vyh (fmul rops dyh dyh), fadd rops vy (fmul rops dy dy))) z (a, b, c)
  = (a + total (map (fun q => (fst q - yh_mean) * (snd q - m)) z), b + total (map (fun q => square (fst q - yh_mean)) z), c + total (map (fun q => square (snd q - m)) z)).
Proof.
  induction z as [|q z IH]; intros a b c; cbn [fold_left map total fold_right]; [f_equal; [f_equal|]; ring|]. rewrite IH. cbn [fst snd fadd fsub fmul rops].
  change (fold_right Rplus 0 ?l) with (total l). unfold square. f_equal; [f_equal|]; ring.
Qed.
End Loops.

Lemma map_snd_combine {A B C} (f : B -> C) : forall (a : list A) (b : list B), List.length a = List.length b -> map (fun q => f (snd q)) (combine a b) = map f b.
Proof. induction a as [|x a IH]; intros [|y b] H; cbn in *; try discriminate; auto. f_equal. apply IH. lia. Qed.
Lemma map_fst_combine {A B C} (f : A -> C) : forall (a : list A) (b : list B), List.length a = List.length b -> map (fun q => f (fst q)) (combine a b) = map f a.
Proof. induction a as [|x a IH]; intros [|y b] H; cbn in *; try discriminate; auto. f_equal. apply IH. lia. Qed.
Lemma weigh_from m1 m2 : forall a b, weigh (from_ m1 a) (from_ m2 b) = map (fun q => (fst q - m1) * (snd q - m2)) (combine a b).
Proof. unfold weigh, over, from_. induction a as [|x a IH]; intros [|y b]; cbn; auto. f_equal. apply IH. Qed.
Lemma weigh_residuals : forall w yhat y, List.length yhat = List.length y ->
  weigh w (map square (residuals yhat y)) = map (fun q => snd q * square (fst (fst q) - snd (fst q))) (combine (combine yhat y) w).
Proof.
  unfold weigh, over, residuals, over. intros w yhat y. revert w y. induction yhat as [|a yhat IH]; intros [|u w] [|b y] H; cbn in *; try discriminate; auto.
  f_equal. apply IH. lia.
Qed.
Lemma weigh_targets m : forall w (yhat y : list R), List.length yhat = List.length y ->
  weigh w (map square (from_ m y)) = map (fun q => snd q * square (snd (fst q) - m)) (combine (combine yhat y) w).
Proof.
  unfold weigh, over, from_. intros w yhat y. revert w y. induction yhat as [|a yhat IH]; intros [|u w] [|b y] H; cbn in *; try discriminate; auto.
  f_equal. apply IH. lia.
Qed.
Lemma residuals_sq yhat y : map square (residuals yhat y) = map (fun q => square (fst q - snd q)) (combine yhat y).
Proof. unfold residuals, over. rewrite map_map. reflexivity. Qed.

(** What the code takes as the correlation: the targets are centred at [c]. *)
Definition corr_about (c : R) (yhat y : list R) : R :=
  let vy := total (map square (from_ c y)) in let vh := total (map square (from_ (mean yhat) yhat)) in
  if Req_EM_T vy 0 then 0 else if Req_EM_T vh 0 then 0 else total (weigh (from_ (mean yhat) yhat) (from_ c y)) / (sqrt vy * sqrt vh).

Lemma r2_corr_spec yhat y w : y <> [] -> List.length yhat = List.length y -> (forall ws, w = Some ws -> List.length ws = List.length y) ->
  r2_and_corr rops rloss yhat y w
  = Ok (match w with None => r_squared (mean y) yhat y | Some ws => weighted_r_squared ws yhat y end,
        corr_about (match w with None => mean y | Some ws => weighted_mean ws y end) yhat y).
Proof.
  intros Hne Hl Hw. unfold r2_and_corr. destruct y as [|y0 y1] eqn:Ey; [contradiction|]. rewrite <- Ey in *. cbn [orb]. rewrite Hl, Nat.eqb_refl. cbn [negb].
  set (c := match w with None => mean y | Some ws => weighted_mean ws y end).
  assert (Hm : match w with
    | None => Ok (fdiv rops (fsum rops y) (lo_of_nat rloss (List.length y)))
    | Some w0 => if feqb rops (fsum rops w0) (fzero rops) then Ok (fzero rops)
        else let! z := zip_eq y w0 in Ok (fdiv rops (fsum rops (map (fun q => fmul rops (fst q) (snd q)) z)) (fsum rops w0))
    end = Ok c).
  { subst c. destruct w as [ws|]; [|rewrite fsum_total; reflexivity]. rewrite !fsum_total. unfold weighted_mean. cbn [feqb fzero rops]. unfold reqb.
    destruct (Req_EM_T (total ws) 0); auto. rewrite zip_ok by (symmetry; auto). cbn [bind]. rewrite fsum_total. cbn [fdiv rops]. do 3 f_equal.
    unfold weigh, over. clear. revert ws. induction y as [|a y IH]; intros [|b ws]; cbn; auto. f_equal; [ring|apply IH]. }
  rewrite Hm. cbn [bind]. clear Hm. rewrite zip_ok by auto. cbn [bind]. rewrite cov_loop. cbn [fdiv lo_of_nat rloss rops]. rewrite fsum_total.
  replace (total yhat / INR (List.length y)) with (mean yhat) by (unfold mean; rewrite Hl; reflexivity).
  assert (Hc : (if feqb rops (fzero rops + total (map (fun q => square (snd q - c)) (combine yhat y))) (fzero rops)
      || feqb rops (fzero rops + total (map (fun q => square (fst q - mean yhat)) (combine yhat y))) (fzero rops) then fzero rops
     else (fzero rops + total (map (fun q => (fst q - mean yhat) * (snd q - c)) (combine yhat y))) /
       fmul rops (lo_sqrt rloss (fzero rops + total (map (fun q => square (snd q - c)) (combine yhat y))))
         (lo_sqrt rloss (fzero rops + total (map (fun q => square (fst q - mean yhat)) (combine yhat y))))) = corr_about c yhat y).
  { cbn [fzero feqb rops fmul lo_sqrt rloss]. rewrite !Rplus_0_l. unfold corr_about. rewrite weigh_from. unfold from_. rewrite !map_map.
    rewrite (map_snd_combine (fun v => square (v - c))) by auto. rewrite (map_fst_combine (fun v => square (v - mean yhat))) by auto. unfold reqb.
    destruct (Req_EM_T (total (map (fun x => square (x - c)) y)) 0); cbn [orb]; auto. destruct (Req_EM_T (total (map (fun x => square (x - mean yhat)) yhat)) 0); auto. }
  destruct w as [ws|].
  - specialize (Hw ws eq_refl). rewrite zip_ok by (rewrite combine_length, Hl, Nat.min_id; auto). cbn [bind]. rewrite wsse_loop. cbn [bind]. f_equal. f_equal; [|exact Hc].
    unfold weighted_r_squared. rewrite (weigh_residuals ws yhat y) by auto. rewrite (weigh_targets (weighted_mean ws y) ws yhat y) by auto.
    cbn [fzero fone feqb rops fsub fdiv]. rewrite !Rplus_0_l. unfold reqb. change c with (weighted_mean ws y). destruct (Req_EM_T _ 0); reflexivity.
  - cbn [bind]. rewrite sse_loop. cbn [bind]. f_equal. f_equal; [|exact Hc]. unfold r_squared. rewrite residuals_sq. unfold from_. rewrite map_map.
    rewrite (map_snd_combine (fun v => square (v - c))) by auto. cbn [fzero fone feqb rops fsub fdiv]. rewrite !Rplus_0_l. unfold reqb. change c with (mean y). destruct (Req_EM_T _ 0); reflexivity.
Qed.

(** ** The loop of [compute_metrics], in any arithmetic *)
Section Generic.
Context {T : Type} (F : FloatOps T) (LO : LossOps T).
(** The absolute errors. *)
Definition abs_errors (yhat y : list T) : list T := map (fun q => lo_abs LO (fsub F (fst q) (snd q))) (combine yhat y).
Definition min_of (a : T) (l : list T) : T := fold_left (fun m e => if fltb F e m then e else m) l a.
Definition max_of (a : T) (l : list T) : T := fold_left (fun m e => if fgtb F e m then e else m) l a.

Lemma plain_loop : forall z s, fold_left (row_plain F LO) z s
  = mkSums (fold_left (fadd F) (map (fun q => fmul F (fsub F (fst q) (snd q)) (fsub F (fst q) (snd q))) z) (sm_mse s))
      (fold_left (fadd F) (map (fun q => lo_abs LO (fsub F (fst q) (snd q))) z) (sm_mae s)) (sm_w s)
      (min_of (sm_min s) (map (fun q => lo_abs LO (fsub F (fst q) (snd q))) z)) (max_of (sm_max s) (map (fun q => lo_abs LO (fsub F (fst q) (snd q))) z)).
Proof. induction z as [|q z IH]; intros s; [destruct s; reflexivity|]. cbn [fold_left map]. rewrite IH. reflexivity. Qed.
Lemma weighted_loop : forall z s, fold_left (row_weighted F LO) z s
  = mkSums (fold_left (fadd F) (map (fun q => fmul F (fmul F (snd q) (fsub F (fst (fst q)) (snd (fst q)))) (fsub F (fst (fst q)) (snd (fst q)))) z) (sm_mse s))
      (fold_left (fadd F) (map (fun q => fmul F (snd q) (lo_abs LO (fsub F (fst (fst q)) (snd (fst q))))) z) (sm_mae s)) (fold_left (fadd F) (map snd z) (sm_w s))
      (min_of (sm_min s) (map (fun q => lo_abs LO (fsub F (fst (fst q)) (snd (fst q)))) z))
      (max_of (sm_max s) (map (fun q => lo_abs LO (fsub F (fst (fst q)) (snd (fst q)))) z)).
Proof. induction z as [|q z IH]; intros s; [destruct s; reflexivity|]. cbn [fold_left map]. rewrite IH. reflexivity. Qed.

Lemma first_of {A B X} (f : A -> X) : forall (z : list A) (w : list B), List.length z = List.length w -> map (fun q => f (fst q)) (combine z w) = map f z.
Proof. apply map_fst_combine. Qed.
Lemma snd_of {A B} : forall (z : list A) (w : list B), List.length z = List.length w -> map snd (combine z w) = w.
Proof. intros z w H. rewrite <- (map_id w) at 2. apply (map_snd_combine (fun x => x)). exact H. Qed.

(** The shape of the result when the lengths agree. *)
Lemma metrics_shape yhat y w mt : compute_metrics F LO yhat y w = Ok mt ->
  List.length yhat = List.length y /\ (forall ws, w = Some ws -> List.length ws = List.length y)
  /\ mt_n mt = List.length y
  /\ mt_rmse mt = lo_sqrt LO (mt_mse mt)
  /\ r2_and_corr F LO yhat y w = Ok (mt_r2 mt, mt_corr mt)
  /\ mt_min_abs mt = (let m := min_of (finf F) (abs_errors yhat y) in if ffinite F m then m else fzero F)
  /\ mt_max_abs mt = max_of (fzero F) (abs_errors yhat y)
  /\ match w with
     | None => let sq := fsum F (map (fun q => fmul F (fsub F (fst q) (snd q)) (fsub F (fst q) (snd q))) (combine yhat y)) in let ab := fsum F (abs_errors yhat y) in
         (mt_mse mt, mt_mae mt) = if 0 <? List.length y then (fdiv F sq (lo_of_nat LO (List.length y)), fdiv F ab (lo_of_nat LO (List.length y))) else (sq, ab)
     | Some ws =>
         let sq := fsum F (map (fun q => fmul F (fmul F (snd q) (fsub F (fst (fst q)) (snd (fst q)))) (fsub F (fst (fst q)) (snd (fst q)))) (combine (combine yhat y) ws)) in
         let ab := fsum F (map (fun q => fmul F (snd q) (lo_abs LO (fsub F (fst (fst q)) (snd (fst q))))) (combine (combine yhat y) ws)) in
         (mt_mse mt, mt_mae mt) = if fgtb F (fsum F ws) (fzero F) then (fdiv F sq (fsum F ws), fdiv F ab (fsum F ws)) else (fzero F, fzero F)
     end.
Proof.
  unfold compute_metrics. intros H. apply bind_ok in H as (z & Hz & H). unfold zip_eq in Hz. destruct (Nat.eqb_spec (List.length yhat) (List.length y)) as [El|]; [|discriminate].
  injection Hz as <-. split; [exact El|]. apply bind_ok in H as ([[mse mae] s] & Hs & H). apply bind_ok in H as ([r2 corr] & Hr & H). injection H as <-.
  cbn [mt_n mt_rmse mt_mse mt_mae mt_r2 mt_corr mt_min_abs mt_max_abs]. destruct w as [ws|].
  - apply bind_ok in Hs as (zw & Hz & Hs). unfold zip_eq in Hz. destruct (Nat.eqb_spec (List.length (combine yhat y)) (List.length ws)) as [Ew|]; [|discriminate]. injection Hz as <-.
    rewrite weighted_loop in Hs. cbn [sm_mse sm_mae sm_w sm_min sm_max] in Hs. rewrite (snd_of _ _ Ew) in Hs.
    rewrite (first_of (fun q => lo_abs LO (fsub F (fst q) (snd q))) _ _ Ew) in Hs. fold (fsum F ws) in Hs.
    split; [intros ws' [= <-]; rewrite combine_length, El, Nat.min_id in Ew; auto|]. split; [reflexivity|]. split; [reflexivity|]. split; [exact Hr|].
    fold (abs_errors yhat y) in Hs. unfold fsum. destruct (fgtb F (fold_left (fadd F) ws (fzero F)) (fzero F)) eqn:Eg; unfold fsum in Hs; rewrite Eg in Hs; injection Hs as <- <- <-; cbn [sm_min sm_max]; auto.
  - rewrite plain_loop in Hs. cbn [sm_mse sm_mae sm_w sm_min sm_max] in Hs. fold (abs_errors yhat y) in Hs.
    split; [discriminate|]. split; [reflexivity|]. split; [reflexivity|]. split; [exact Hr|].
    unfold fsum. destruct (0 <? List.length y); injection Hs as <- <- <-; cbn [sm_min sm_max]; auto.
Qed.

Lemma metrics_total yhat y w : List.length yhat = List.length y -> (forall ws, w = Some ws -> List.length ws = List.length y) -> exists mt, compute_metrics F LO yhat y w = Ok mt.
Proof.
  intros El Hw. unfold compute_metrics. rewrite zip_ok by auto. cbn [bind].
  assert (Hz : forall ws, w = Some ws -> zip_eq (combine yhat y) ws = Ok (combine (combine yhat y) ws)) by (intros ws E; apply zip_ok; rewrite combine_length, El, Nat.min_id; symmetry; auto).
  assert (Hr : exists q, r2_and_corr F LO yhat y w = Ok q).
  { unfold r2_and_corr. destruct (_ || _); [eauto|]. destruct w as [ws|].
    - destruct (feqb F (fsum F ws) (fzero F)); cbn [bind]; [|rewrite (zip_ok y ws) by (symmetry; auto); cbn [bind]]; rewrite zip_ok by auto; cbn [bind];
        rewrite (Hz ws eq_refl); cbn [bind]; destruct (fold_left _ _ _) as [sse sst]; cbn [bind]; destruct (fold_left _ _ _) as [[cov vyh] vy]; eauto.
    - cbn [bind]. rewrite zip_ok by auto. cbn [bind]. destruct (fold_left _ _ _) as [sse sst]. cbn [bind]. destruct (fold_left _ _ _) as [[cov vyh] vy]. eauto. }
  destruct Hr as [[r2 corr] Hr]. rewrite Hr. destruct w as [ws|].
  - rewrite (Hz ws eq_refl). cbn [bind]. destruct (fgtb F _ _); cbn [bind]; eauto.
  - destruct (0 <? List.length y); cbn [bind]; eauto.
Qed.
End Generic.

(** ** Facts about the specification *)
Lemma total_app a b : total (a ++ b) = total a + total b.
Proof. induction a as [|x a IH]; cbn [app total fold_right]; [unfold total; ring|]. change (fold_right Rplus 0 ?l) with (total l) in *. rewrite IH. ring. Qed.
Lemma total_map_lin {A} (f g : A -> R) (k : R) l : total (map (fun x => f x + k * g x) l) = total (map f l) + k * total (map g l).
Proof. induction l as [|x l IH]; cbn [map total fold_right]; [ring|]. change (fold_right Rplus 0 ?l) with (total l). rewrite IH. ring. Qed.
Lemma total_const {A} (k : R) (l : list A) : total (map (fun _ => k) l) = INR (List.length l) * k.
Proof. induction l as [|x l IH]; [cbn; ring|]. cbn [List.length map total fold_right]. change (fold_right Rplus 0 ?l) with (total l). rewrite IH, S_INR. ring. Qed.
Lemma total_zero l : total (map square l) = 0 -> Forall (fun x => x = 0) l.
Proof.
  induction l as [|x l IH]; intros H; constructor; cbn [map total fold_right] in H; change (fold_right Rplus 0 ?l) with (total l) in H;
    pose proof (squares_nonneg l); unfold square at 1 in H; [nra|apply IH; nra].
Qed.
Lemma length_pos (l : list R) : l <> [] -> 0 < INR (List.length l).
Proof. destruct l; [contradiction|]. intros _. cbn [List.length]. rewrite S_INR. pose proof (pos_INR (List.length l)). lra. Qed.
(** Deviations from the mean add up to 0. *)
Lemma centred_zero l : l <> [] -> total (from_ (mean l) l) = 0.
Proof.
  intros H. pose proof (length_pos l H) as Hp. unfold from_.
  assert (E : total (map (fun x => x - mean l) l) = total (map (fun x => x + -1 * mean l) l)) by (f_equal; apply map_ext; intros; ring). rewrite E.
  pose proof (total_map_lin (fun x : R => x) (fun _ => mean l) (-1) l) as E2. cbn beta in E2. rewrite E2, map_id, total_const. unfold mean. field. lra.
Qed.
(** Moving the centre from the mean to [c] adds n (mean - c)^2 to the sum of squares ... *)
Lemma shift_square l c : l <> [] -> total (map square (from_ c l)) = total (map square (from_ (mean l) l)) + INR (List.length l) * square (mean l - c).
Proof.
  intros H. pose proof (centred_zero l H) as E0. unfold from_ in *. rewrite !map_map.
  assert (E : map (fun x => square (x - c)) l = map (fun x => (square (x - mean l) + square (mean l - c)) + (2 * (mean l - c)) * (x - mean l)) l) by (apply map_ext; intros; unfold square; ring).
  rewrite E. pose proof (total_map_lin (fun x => square (x - mean l) + square (mean l - c)) (fun x => x - mean l) (2 * (mean l - c)) l) as E1. cbn beta in E1. rewrite E1, E0.
  pose proof (total_map_lin (fun x => square (x - mean l)) (fun _ => square (mean l - c)) 1 l) as E2. cbn beta in E2.
  rewrite <- (total_const (square (mean l - c)) l). rewrite Rmult_0_r, Rplus_0_r, <- (Rmult_1_l (total (map (fun _ => square (mean l - c)) l))), <- E2. f_equal. apply map_ext. intros. ring.
Qed.
(** ... and does not change the covariance. *)
Lemma weigh_add : forall a b k, List.length a = List.length b -> total (weigh a (map (fun x => x + k) b)) = total (weigh a b) + k * total a.
Proof.
  unfold weigh, over. induction a as [|x a IH]; intros [|y b] k H; cbn [List.length] in H; try discriminate; [cbn; ring|]. cbn [map combine total fold_right fst snd].
  change (fold_right Rplus 0 ?l) with (total l). rewrite (IH b k) by lia. ring.
Qed.
Lemma shift_cov a b c : a <> [] -> List.length a = List.length b -> total (weigh (from_ (mean a) a) (from_ c b)) = total (weigh (from_ (mean a) a) (from_ (mean b) b)).
Proof.
  intros H Hl. assert (E : from_ c b = map (fun x => x + (mean b - c)) (from_ (mean b) b)) by (unfold from_; rewrite map_map; apply map_ext; intros; ring).
  rewrite E, weigh_add by (unfold from_; rewrite !map_length; auto). rewrite (centred_zero a H). ring.
Qed.
Lemma cov_zero_l : forall a b, Forall (fun x => x = 0) a -> total (weigh a b) = 0.
Proof.
  unfold weigh, over. intros a b H. revert b. induction H as [|x a -> _ IH]; intros [|y b]; cbn [combine map total fold_right]; auto.
  change (fold_right Rplus 0 ?l) with (total l). rewrite IH. cbn [fst snd]. ring.
Qed.
Lemma weigh_comm : forall a b, weigh a b = weigh b a.
Proof. unfold weigh, over. induction a as [|x a IH]; intros [|y b]; cbn [combine map]; auto. f_equal; [cbn; ring|apply IH]. Qed.

Lemma corr_bound c yhat y : -1 <= corr_about c yhat y <= 1.
Proof.
  unfold corr_about. pose proof (squares_nonneg (from_ c y)) as H1. pose proof (squares_nonneg (from_ (mean yhat) yhat)) as H2.
  destruct (Req_EM_T _ 0) as [|N1]; [lra|]. destruct (Req_EM_T _ 0) as [|N2]; [lra|].
  pose proof (cauchy (from_ (mean yhat) yhat) (from_ c y)) as HC.
  set (S := total (weigh _ _)) in *. set (A := total (map square (from_ (mean yhat) yhat))) in *. set (B := total (map square (from_ c y))) in *.
  assert (HA : 0 < A) by lra. assert (HB : 0 < B) by lra. pose proof (sqrt_lt_R0 A HA) as SA. pose proof (sqrt_lt_R0 B HB) as SB.
  pose proof (sqrt_sqrt A (Rlt_le _ _ HA)) as EA. pose proof (sqrt_sqrt B (Rlt_le _ _ HB)) as EB.
  set (a := sqrt A) in *. set (b := sqrt B) in *. assert (Hab : 0 < b * a) by nra.
  assert (HS : S * S <= (b * a) * (b * a)) by (replace ((b * a) * (b * a)) with (A * B) by (rewrite <- EA, <- EB; ring); exact HC).
  assert (Hlo : - (b * a) <= S) by nra. assert (Hhi : S <= b * a) by nra. split.
  - apply Rmult_le_reg_r with (b * a); auto. unfold Rdiv. rewrite Rmult_assoc, Rinv_l by lra. lra.
  - apply Rmult_le_reg_r with (b * a); auto. unfold Rdiv. rewrite Rmult_assoc, Rinv_l by lra. lra.
Qed.
Lemma corr_pearson yhat y : corr_about (mean y) yhat y = pearson yhat y.
Proof.
  unfold corr_about, pearson. destruct (Req_EM_T (total (map square (from_ (mean y) y))) 0); destruct (Req_EM_T (total (map square (from_ (mean yhat) yhat))) 0); auto.
  f_equal. ring.
Qed.
Lemma corr_shift c yhat y : y <> [] -> List.length yhat = List.length y ->
  corr_about c yhat y * sqrt (total (map square (from_ (mean y) y)) + INR (List.length y) * square (mean y - c)) = pearson yhat y * sqrt (total (map square (from_ (mean y) y))).
Proof.
  intros Hy Hl. assert (Hh : yhat <> []) by (destruct yhat; [destruct y; [contradiction|discriminate]|discriminate]). rewrite <- shift_square by auto.
  unfold corr_about, pearson. rewrite (shift_cov yhat y c Hh Hl). pose proof (squares_nonneg (from_ (mean y) y)) as P1. pose proof (squares_nonneg (from_ (mean yhat) yhat)) as P2.
  pose proof (squares_nonneg (from_ c y)) as P3. pose proof (shift_square y c Hy) as Es. pose proof (length_pos y Hy) as Hn. assert (Hsq : 0 <= square (mean y - c)) by exact (Rle_0_sqr (mean y - c)).
  destruct (Req_EM_T (total (map square (from_ c y))) 0) as [E1|N1].
  { pose proof (Rmult_le_pos _ _ (Rlt_le _ _ Hn) Hsq) as Hp. assert (H : total (map square (from_ (mean y) y)) = 0) by lra. rewrite E1. rewrite H. rewrite sqrt_0. ring. }
  destruct (Req_EM_T (total (map square (from_ (mean yhat) yhat))) 0) as [E2|N2]; [ring|].
  destruct (Req_EM_T (total (map square (from_ (mean y) y))) 0) as [E3|N3].
  { rewrite E3, sqrt_0. pose proof (total_zero _ E3) as Z. rewrite weigh_comm, (cov_zero_l _ _ Z). unfold Rdiv. ring. }
  assert (0 < sqrt (total (map square (from_ c y)))) by (apply sqrt_lt_R0; lra). assert (0 < sqrt (total (map square (from_ (mean y) y)))) by (apply sqrt_lt_R0; lra).
  assert (0 < sqrt (total (map square (from_ (mean yhat) yhat)))) by (apply sqrt_lt_R0; lra). field. lra.
Qed.
Lemma weigh_sq_nonneg : forall w l, Forall (fun x => 0 <= x) w -> 0 <= total (weigh w (map square l)).
Proof.
  intros w l H. revert l. unfold weigh, over. induction H as [|x w Hx _ IH]; intros [|y l]; cbn [map combine total fold_right]; try lra.
  change (fold_right Rplus 0 ?l) with (total l). specialize (IH l). cbn [fst snd]. unfold square at 1. nra.
Qed.
Lemma residuals_self y : map square (residuals y y) = map (fun _ => 0) y.
Proof. unfold residuals, over, square. rewrite map_map. induction y as [|a y IH]; cbn [combine map fst snd]; auto. f_equal; [ring|exact IH]. Qed.

(** ** C58 *)
(** Unweighted data, real arithmetic: the metrics are the textbook ones. *)
Theorem C58_metrics : forall yhat y, y <> [] -> List.length yhat = List.length y ->
  exists mt, compute_metrics rops rloss yhat y None = Ok mt
    /\ mt_n mt = List.length y
    /\ mt_mse mt = mean (map square (residuals yhat y)) /\ mt_mae mt = mean (map Rabs (residuals yhat y)) /\ mt_rmse mt = sqrt (mt_mse mt)
    /\ mt_r2 mt = r_squared (mean y) yhat y /\ mt_corr mt = pearson yhat y.
Proof.
  intros yhat y Hne Hl. destruct (metrics_total rops rloss yhat y None Hl) as [mt H]; [discriminate|]. exists mt. split; [exact H|].
  apply metrics_shape in H as (_ & _ & Hn & Hrm & Hr & _ & _ & He). split; [exact Hn|]. rewrite r2_corr_spec in Hr by (auto; discriminate). injection Hr as <- <-.
  assert (Hpos : (0 <? List.length y)%nat = true) by (apply Nat.ltb_lt; destruct y; [contradiction|cbn; lia]). cbv zeta in He. rewrite Hpos, !fsum_total in He. injection He as He1 He2.
  assert (Hlr : List.length (residuals yhat y) = List.length y) by (unfold residuals, over; rewrite map_length, combine_length, Hl, Nat.min_id; reflexivity).
  split; [rewrite He1|split; [rewrite He2|split; [exact Hrm|split; [reflexivity|apply corr_pearson]]]]; unfold mean; rewrite map_length, Hlr; cbn [fdiv rops lo_of_nat rloss]; f_equal.
  - rewrite residuals_sq. reflexivity.
  - unfold residuals, over. rewrite map_map. reflexivity.
Qed.

(** Weighted data: weighted means of the squared and absolute errors (0 if the weights do not add up to a positive number), the weighted coefficient of
    determination; the correlation is Pearson's, shrunk by the distance between the mean of the targets and their weighted mean. *)
Theorem C58_weighted : forall yhat y w, y <> [] -> List.length yhat = List.length y -> List.length w = List.length y ->
  exists mt, compute_metrics rops rloss yhat y (Some w) = Ok mt
    /\ mt_n mt = List.length y
    /\ (0 < total w -> mt_mse mt = total (weigh w (map square (residuals yhat y))) / total w /\ mt_mae mt = total (weigh w (map Rabs (residuals yhat y))) / total w)
    /\ (total w <= 0 -> mt_mse mt = 0 /\ mt_mae mt = 0) /\ mt_rmse mt = sqrt (mt_mse mt)
    /\ mt_r2 mt = weighted_r_squared w yhat y
    /\ let v := total (map square (from_ (mean y) y)) in
       mt_corr mt * sqrt (v + INR (List.length y) * square (mean y - weighted_mean w y)) = pearson yhat y * sqrt v.
Proof.
  intros yhat y w Hne Hl Hw. assert (Hw' : forall ws, Some w = Some ws -> List.length ws = List.length y) by (intros ws [= <-]; auto).
  destruct (metrics_total rops rloss yhat y (Some w) Hl Hw') as [mt H]. exists mt. split; [exact H|].
  apply metrics_shape in H as (_ & _ & Hn & Hrm & Hr & _ & _ & He). split; [exact Hn|]. rewrite r2_corr_spec in Hr by auto. injection Hr as <- <-.
  cbv zeta in He. rewrite !fsum_total in He. unfold fgtb in He. cbn [fltb fzero rops] in He.
  assert (E1 : map (fun q => fmul rops (fmul rops (snd q) (fsub rops (fst (fst q)) (snd (fst q)))) (fsub rops (fst (fst q)) (snd (fst q)))) (combine (combine yhat y) w)
    = weigh w (map square (residuals yhat y))).
  { rewrite weigh_residuals by auto. apply map_ext. intros q. cbn [fmul fsub rops]. unfold square. ring. }
  assert (E2 : map (fun q => fmul rops (snd q) (lo_abs rloss (fsub rops (fst (fst q)) (snd (fst q))))) (combine (combine yhat y) w) = weigh w (map Rabs (residuals yhat y))).
  { cbn [fmul fsub rops lo_abs rloss]. clear. unfold weigh, residuals, over. revert y w. induction yhat as [|a yhat IH]; intros [|b y] [|u w]; cbn [combine map fst snd]; auto. f_equal. apply IH. }
  rewrite E1, E2 in He. split; [|split; [|split; [exact Hrm|split; [reflexivity|cbv zeta; apply corr_shift; auto]]]].
  - intros Hp. apply rltb_iff in Hp. rewrite Hp in He. injection He as -> ->. split; reflexivity.
  - intros Hp. apply rltb_false in Hp. rewrite Hp in He. injection He as -> ->. split; reflexivity.
Qed.

(** The ranges: no correlation outside [-1, 1], no r2 above 1 with non-negative weights, no negative error. *)
Theorem C58_bounds : forall yhat y w mt, y <> [] -> (forall ws, w = Some ws -> Forall (fun x => 0 <= x) ws) -> compute_metrics rops rloss yhat y w = Ok mt ->
  -1 <= mt_corr mt <= 1 /\ mt_r2 mt <= 1 /\ 0 <= mt_mse mt /\ 0 <= mt_mae mt /\ 0 <= mt_rmse mt
  /\ (w = None -> mt_mae mt <= mt_rmse mt).
Proof.
  intros yhat y w mt Hne Hnn H. pose proof H as H0. apply metrics_shape in H as (Hl & Hw & _ & Hrm & Hr & _). rewrite r2_corr_spec in Hr by auto. injection Hr as Hr2 Hco. rewrite <- Hco, <- Hr2.
  split; [apply corr_bound|]. rewrite Hrm. clear Hrm Hr2 Hco. assert (Hsqrt : 0 <= sqrt (mt_mse mt)) by apply sqrt_pos.
  destruct w as [ws|].
  - specialize (Hnn ws eq_refl). destruct (C58_weighted yhat y ws Hne Hl (Hw ws eq_refl)) as (mt' & E & _ & H1 & H2 & _). rewrite E in H0. injection H0 as <-. split.
    + unfold weighted_r_squared. destruct (Req_EM_T _ 0) as [|N]; [lra|]. pose proof (weigh_sq_nonneg ws (from_ (weighted_mean ws y) y) Hnn) as P1.
      pose proof (weigh_sq_nonneg ws (residuals yhat y) Hnn) as P2. set (A := total (weigh ws (map square (residuals yhat y)))) in *. set (B := total (weigh ws (map square (from_ (weighted_mean ws y) y)))) in *.
      assert (0 <= A / B); [apply Rmult_le_pos; auto; left; apply Rinv_0_lt_compat; lra|lra].
    + assert (P3 : 0 <= total (weigh ws (map Rabs (residuals yhat y)))).
      { clear - Hnn. revert Hnn. generalize (residuals yhat y) as l. unfold weigh, over. intros l Hnn. revert l. induction Hnn as [|x w Hx _ IH]; intros [|z l]; cbn [combine map total fold_right]; try lra.
        change (fold_right Rplus 0 ?l) with (total l). specialize (IH l). cbn [fst snd]. pose proof (Rmult_le_pos x (Rabs z) Hx (Rabs_pos z)). lra. }
      pose proof (weigh_sq_nonneg ws (residuals yhat y) Hnn) as P2. destruct (Rlt_le_dec 0 (total ws)) as [Hp|Hp].
      * destruct (H1 Hp) as [-> ->]. assert (Hi : 0 <= / total ws) by (left; apply Rinv_0_lt_compat; auto). unfold Rdiv. split; [apply Rmult_le_pos; auto|]. split; [apply Rmult_le_pos; auto|].
        split; [apply sqrt_pos|discriminate].
      * destruct (H2 Hp) as [-> ->]. split; [lra|]. split; [lra|]. split; [apply sqrt_pos|discriminate].
  - destruct (C58_metrics yhat y Hne Hl) as (mt' & E & _ & E1 & E2 & _). rewrite E in H0. injection H0 as <-. split.
    + unfold r_squared. destruct (Req_EM_T _ 0) as [|N]; [lra|]. pose proof (squares_nonneg (from_ (mean y) y)) as P1. pose proof (squares_nonneg (residuals yhat y)) as P2.
      set (A := total (map square (residuals yhat y))) in *. set (B := total (map square (from_ (mean y) y))) in *. assert (0 <= A / B); [apply Rmult_le_pos; auto; left; apply Rinv_0_lt_compat; lra|lra].
    + assert (Hlr : List.length (residuals yhat y) = List.length y) by (unfold residuals, over; rewrite map_length, combine_length, Hl, Nat.min_id; reflexivity).
      pose proof (length_pos y Hne) as Hn. assert (Hi : 0 <= / INR (List.length y)) by (left; apply Rinv_0_lt_compat; auto).
      assert (P3 : 0 <= total (map Rabs (residuals yhat y))) by (apply total_nonneg, Forall_forall; intros x Hx; apply in_map_iff in Hx as (z & <- & _); apply Rabs_pos).
      pose proof (squares_nonneg (residuals yhat y)) as P2. unfold mean in E1, E2. rewrite map_length, Hlr in E1, E2.
      assert (M1 : 0 <= mt_mse mt') by (rewrite E1; apply Rmult_le_pos; auto). assert (M2 : 0 <= mt_mae mt') by (rewrite E2; apply Rmult_le_pos; auto). split; auto. split; auto. split; [apply sqrt_pos|].
      intros _. pose proof (cauchy (map (fun _ => 1) (residuals yhat y)) (map Rabs (residuals yhat y))) as HC. rewrite map_map, total_const, Hlr in HC. rewrite map_map in HC.
      assert (Q1 : total (weigh (map (fun _ => 1) (residuals yhat y)) (map Rabs (residuals yhat y))) = total (map Rabs (residuals yhat y))).
      { clear. f_equal. generalize (residuals yhat y) as l. unfold weigh, over. induction l as [|x l IH]; cbn [map combine fst snd]; auto. f_equal; [ring|exact IH]. }
      assert (Q2 : map (fun x => square (Rabs x)) (residuals yhat y) = map square (residuals yhat y)).
      { apply map_ext. intros x. unfold square. rewrite <- Rabs_mult. apply Rabs_pos_eq. exact (Rle_0_sqr x). }
      rewrite Q1, Q2 in HC. unfold square at 1 in HC. apply Rsqr_incr_0; [|exact M2|apply sqrt_pos]. unfold Rsqr. rewrite sqrt_sqrt by auto. rewrite E1, E2.
      set (A := total (map Rabs (residuals yhat y))) in *. set (B := total (map square (residuals yhat y))) in *. set (n := INR (List.length y)) in *.
      replace (A / n * (A / n)) with (A * A * (/ n * / n)) by (unfold Rdiv; ring). replace (B / n) with (n * B * (/ n * / n)) by (unfold Rdiv; field; lra).
      apply Rmult_le_compat_r; [apply Rmult_le_pos; auto|lra].
Qed.

(** A perfect prediction: no error, r2 = 1 and, on unweighted data, correlation 1, unless the targets are constant. *)
Theorem C58_perfect : forall y w mt, y <> [] -> (forall x, y <> map (fun _ => x) y) -> (forall ws, w = Some ws -> Forall (fun x => 0 < x) ws) ->
  compute_metrics rops rloss y y w = Ok mt ->
  mt_mse mt = 0 /\ mt_mae mt = 0 /\ mt_rmse mt = 0 /\ mt_r2 mt = 1 /\ (w = None -> mt_corr mt = 1).
Proof.
  intros y w mt Hne Hconst Hpos H. pose proof H as H0. apply metrics_shape in H as (Hl & Hw & _ & Hrm & Hr & _). cbn [lo_sqrt rloss] in Hrm.
  assert (Hnz : forall c, total (map square (from_ c y)) <> 0).
  { intros c E. apply total_zero in E. apply (Hconst c). clear - E. induction y as [|a y IH]; auto. cbn [map]. inversion E as [|? ? Ea Ey]; subst. f_equal; [lra|apply IH; exact Ey]. }
  assert (Hab : map Rabs (residuals y y) = map (fun _ => 0) y).
  { unfold residuals, over. rewrite map_map. clear. induction y as [|a y IH]; cbn [combine map fst snd]; auto. f_equal; [rewrite Rminus_diag_eq, Rabs_R0; auto|exact IH]. }
  assert (Hz : total (map (fun _ : R => 0) y) = 0) by (rewrite total_const; ring).
  assert (Hwz : forall ws, total (weigh ws (map (fun _ : R => 0) y)) = 0).
  { intros ws. rewrite weigh_comm. apply cov_zero_l, Forall_forall. intros x Hx. apply in_map_iff in Hx as (_ & <- & _). reflexivity. }
  rewrite r2_corr_spec in Hr by auto. injection Hr as Hr2 Hco. destruct w as [ws|].
  - specialize (Hpos ws eq_refl). specialize (Hw ws eq_refl). destruct (C58_weighted y y ws Hne Hl Hw) as (mt' & E & _ & H1 & _). rewrite E in H0. injection H0 as <-.
    assert (Hp : 0 < total ws).
    { destruct ws as [|u ws]; [destruct y; [contradiction|discriminate]|]. inversion Hpos as [|? ? Hu Hus]; subst. cbn [total fold_right]. change (fold_right Rplus 0 ws) with (total ws).
      assert (0 <= total ws) by (apply total_nonneg; eapply Forall_impl; [|exact Hus]; cbn; intros; lra). lra. }
    destruct (H1 Hp) as [E1 E2]. rewrite residuals_self, Hwz in E1. rewrite Hab, Hwz in E2. unfold Rdiv in E1, E2. rewrite Rmult_0_l in E1, E2. rewrite Hrm, E1, E2, sqrt_0, <- Hr2.
    repeat (split; [reflexivity|]). split; [|discriminate]. unfold weighted_r_squared. rewrite residuals_self, Hwz. destruct (Req_EM_T _ 0) as [Ez|N]; [|field; exact N].
    exfalso. apply (Hnz (weighted_mean ws y)). revert Ez. generalize (weighted_mean ws y) as c. intros c Ez. clear - Hpos Hw Ez.
    assert (Hall : Forall (fun x => x = 0) (from_ c y)); [|clear - Hall; induction Hall as [|x l -> _ IH]; cbn [map total fold_right]; auto; change (fold_right Rplus 0 ?l) with (total l); rewrite IH; unfold square; ring].
    unfold from_ in *. revert ws Hpos Hw Ez. induction y as [|a y IH]; intros [|u ws] Hpos Hw Ez; cbn [List.length] in Hw; try discriminate; cbn [map]; constructor; inversion Hpos as [|? ? Hu Hus]; subst;
      unfold weigh, over in Ez; cbn [combine map total fold_right fst snd] in Ez; change (fold_right Rplus 0 ?l) with (total l) in Ez;
      assert (Hnn : Forall (fun x => 0 <= x) ws) by (eapply Forall_impl; [|exact Hus]; cbn; intros; lra);
      pose proof (weigh_sq_nonneg ws (map (fun x => x - c) y) Hnn) as Hq; unfold weigh, over in Hq;
      pose proof (Rmult_le_pos u (square (a - c)) (Rlt_le _ _ Hu) (Rle_0_sqr (a - c))) as Hs.
    + assert (Es : u * square (a - c) = 0) by lra. apply Rmult_integral in Es as [|Es]; [lra|]. apply Rsqr_0_uniq. exact Es.
    + apply (IH ws Hus); [lia|]. unfold weigh, over. lra.
  - destruct (C58_metrics y y Hne Hl) as (mt' & E & _ & E1 & E2 & _ & _ & E3). rewrite E in H0. injection H0 as <-.
    unfold mean in E1, E2. rewrite residuals_self, Hz in E1. rewrite Hab, Hz in E2. unfold Rdiv in E1, E2. rewrite Rmult_0_l in E1, E2. rewrite Hrm, E1, E2, sqrt_0, <- Hr2.
    repeat (split; [reflexivity|]). split.
    + unfold r_squared. rewrite residuals_self, Hz. destruct (Req_EM_T _ 0) as [Ez|N]; [exfalso; apply (Hnz _ Ez)|field; exact N].
    + intros _. rewrite E3. unfold pearson. destruct (Req_EM_T _ 0) as [Ez|N]; [exfalso; apply (Hnz _ Ez)|].
      assert (Ew : weigh (from_ (mean y) y) (from_ (mean y) y) = map square (from_ (mean y) y)).
      { clear. generalize (from_ (mean y) y) as l. unfold weigh, over, square. induction l as [|a l IH]; cbn [combine map fst snd]; auto. f_equal. exact IH. }
      rewrite Ew, sqrt_sqrt by apply squares_nonneg. field. exact N.
Qed.

(** With weights a perfect prediction need not have correlation 1: the code says "correlation unweighted", but centres the targets at their weighted mean. *)
Theorem C58_weighted_corr_refuted : exists y w mt, Forall (fun x => 0 < x) w /\ compute_metrics rops rloss y y (Some w) = Ok mt
  /\ pearson y y = 1 /\ mt_corr mt < 1.
Proof.
  set (y := [0; 1]). assert (Hne : y <> []) by discriminate. destruct (C58_weighted y y [1; 3] Hne eq_refl eq_refl) as (mt & E & _ & _ & _ & _ & _ & Hc).
  exists y, [1; 3], mt. split; [repeat constructor; lra|]. split; [exact E|].
  destruct (C58_metrics y y Hne eq_refl) as (m0 & E0 & _ & _ & _ & _ & _ & Hp). rewrite <- Hp.
  assert (Hp1 : mt_corr m0 = 1).
  { apply (C58_perfect y None m0 Hne); auto; [|discriminate]. intros x. unfold y. cbn [map]. intros [= E1 E2]. lra. }
  split; [exact Hp1|]. cbv zeta in Hc. rewrite <- Hp, Hp1 in Hc. assert (Hm : mean y = 1 / 2) by (unfold mean, y, total; cbn [fold_right List.length INR]; lra).
  assert (Hw : weighted_mean [1; 3] y = 3 / 4).
  { unfold weighted_mean, y, weigh, over, total. cbn [fold_right combine map fst snd]. destruct (Req_EM_T _ 0); lra. }
  rewrite Hm, Hw in Hc. set (v := total _) in Hc. assert (Hv : v = 1 / 2) by (unfold v, y, from_, square, total; cbn [map fold_right]; lra). rewrite Hv in Hc.
  apply Rnot_le_lt. intros Hge. assert (Hlt : sqrt (1 / 2) < sqrt (1 / 2 + INR (List.length y) * square (1 / 2 - 3 / 4))).
  { apply sqrt_lt_1; unfold y, square; cbn [List.length INR]; lra. }
  pose proof (sqrt_pos (1 / 2)). nra.
Qed.

(** In any arithmetic with a sensible order: the smallest and the largest absolute error. *)
Lemma min_of_spec {T} (F : FloatOps T) (L : OrderLaws F) : forall l a, Forall (num F) (a :: l) ->
  In (min_of F a l) (a :: l) /\ (forall e, In e (a :: l) -> fltb F e (min_of F a l) = false).
Proof.
  induction l as [|e l IH]; intros a H.
  - split; [left; reflexivity|]. intros e [<-|[]]. apply (ol_irr F L).
  - cbn [min_of fold_left]. fold (min_of F (if fltb F e a then e else a) l). inversion H as [|? ? Ha H1]; subst. inversion H1 as [|? ? He H2]; subst.
    assert (Hm : Forall (num F) ((if fltb F e a then e else a) :: l)) by (constructor; auto; destruct (fltb F e a); auto).
    destruct (IH _ Hm) as [I1 I2]. split.
    + destruct I1 as [I1|I1]; [|cbn; auto]. rewrite <- I1. destruct (fltb F e a); cbn; auto.
    + set (m := min_of F (if fltb F e a then e else a) l) in *. intros x Hx.
      assert (Hnm : num F m) by (destruct I1 as [<-|I1]; [inversion Hm; auto|inversion Hm as [|? ? _ Hf]; subst; rewrite Forall_forall in Hf; auto]).
      assert (Hdown : forall u, num F u -> forall v, num F v -> fltb F v u = false -> fltb F u m = false -> fltb F v m = false).
      { intros u Hu v Hv H3 H4. destruct (fltb F v m) eqn:E; auto. destruct (ol_total F L v u Hv Hu) as [X|[X|X]]; [congruence| |].
        - rewrite <- (ol_eq_l F L _ _ m X) in H4. congruence.
        - rewrite (ol_trans F L _ _ _ X E) in H4. discriminate. }
      destruct Hx as [<-|[<-|Hx]]; [| |apply I2; right; exact Hx]; destruct (fltb F e a) eqn:E.
      * apply (Hdown e He a Ha); [|apply I2; left; reflexivity]. destruct (fltb F a e) eqn:E2; auto. pose proof (ol_trans F L _ _ _ E E2) as Z. rewrite (ol_irr F L) in Z. discriminate.
      * apply I2; left; reflexivity.
      * apply I2; left; reflexivity.
      * apply (Hdown a Ha e He); auto. apply I2; left; reflexivity.
Qed.
Lemma max_of_spec {T} (F : FloatOps T) (L : OrderLaws F) : forall l a, Forall (num F) (a :: l) ->
  In (max_of F a l) (a :: l) /\ (forall e, In e (a :: l) -> fltb F (max_of F a l) e = false).
Proof.
  induction l as [|e l IH]; intros a H.
  - split; [left; reflexivity|]. intros e [<-|[]]. apply (ol_irr F L).
  - cbn [max_of fold_left]. fold (max_of F (if fgtb F e a then e else a) l). unfold fgtb. inversion H as [|? ? Ha H1]; subst. inversion H1 as [|? ? He H2]; subst.
    assert (Hm : Forall (num F) ((if fltb F a e then e else a) :: l)) by (constructor; auto; destruct (fltb F a e); auto).
    destruct (IH _ Hm) as [I1 I2]. split.
    + destruct I1 as [I1|I1]; [|cbn; auto]. rewrite <- I1. destruct (fltb F a e); cbn; auto.
    + set (m := max_of F (if fltb F a e then e else a) l) in *. intros x Hx.
      assert (Hnm : num F m) by (destruct I1 as [<-|I1]; [inversion Hm; auto|inversion Hm as [|? ? _ Hf]; subst; rewrite Forall_forall in Hf; auto]).
      assert (Hup : forall u, num F u -> forall v, num F v -> fltb F u v = false -> fltb F m u = false -> fltb F m v = false).
      { intros u Hu v Hv H3 H4. destruct (fltb F m v) eqn:E; auto. destruct (ol_total F L v u Hv Hu) as [X|[X|X]]; [| |congruence].
        - rewrite (ol_trans F L _ _ _ E X) in H4. discriminate.
        - rewrite <- (ol_eq_r F L _ _ m X) in H4. congruence. }
      destruct Hx as [<-|[<-|Hx]]; [| |apply I2; right; exact Hx]; destruct (fltb F a e) eqn:E.
      * apply (Hup e He a Ha); [|apply I2; left; reflexivity]. destruct (fltb F e a) eqn:E2; auto. pose proof (ol_trans F L _ _ _ E E2) as Z. rewrite (ol_irr F L) in Z. discriminate.
      * apply I2; left; reflexivity.
      * apply I2; left; reflexivity.
      * apply (Hup a Ha e He); auto. apply I2; left; reflexivity.
Qed.

Theorem C58_extremes : forall (T : Type) (F : FloatOps T) (LO : LossOps T) yhat y w mt, OrderLaws F ->
  let es := map (fun q => lo_abs LO (fsub F (fst q) (snd q))) (combine yhat y) in
  (forall e, In e es -> num F e /\ ffinite F e = true /\ fltb F e (fzero F) = false /\ fltb F e (finf F) = true) ->
  num F (fzero F) -> y <> [] -> compute_metrics F LO yhat y w = Ok mt ->
  In (mt_min_abs mt) es /\ (forall e, In e es -> fltb F e (mt_min_abs mt) = false)
  /\ (In (mt_max_abs mt) es \/ mt_max_abs mt = fzero F /\ forall e, In e es -> feqb F e (fzero F) = true) /\ (forall e, In e es -> fltb F (mt_max_abs mt) e = false).
Proof.
  intros T F LO yhat y w mt L es He Hz Hne H. apply metrics_shape in H as (Hl & _ & _ & _ & _ & Hmin & Hmax & _). cbv zeta in Hmin. unfold abs_errors in *. fold es in Hmin, Hmax.
  assert (Hes : es <> []) by (subst es; destruct y, yhat; try discriminate; contradiction).
  assert (Hall : Forall (num F) es) by (apply Forall_forall; intros e Hi; apply He; auto).
  destruct (min_of_spec F L es (finf F)) as [M1 M2]; [constructor; [apply (ol_inf_num F L)|exact Hall]|]. destruct (max_of_spec F L es (fzero F)) as [X1 X2]; [constructor; auto|].
  rewrite <- Hmax in X1, X2.
  assert (Hin : In (min_of F (finf F) es) es).
  { destruct M1 as [M1|M1]; auto. exfalso. destruct es as [|e0 es']; [contradiction|]. specialize (M2 e0 (or_intror (or_introl eq_refl))). rewrite <- M1 in M2.
    destruct (He e0 (or_introl eq_refl)) as (_ & _ & _ & H4). congruence. }
  destruct (He _ Hin) as (_ & Hf & _). rewrite Hf in Hmin. rewrite Hmin. split; [exact Hin|]. split; [intros e Hi; apply M2; right; exact Hi|].
  split; [|intros e Hi; apply X2; right; exact Hi]. destruct X1 as [X1|X1]; [|left; exact X1]. right. split; [auto|]. intros e Hi. destruct (He e Hi) as (Hn & _ & H0 & _).
  destruct (ol_total F L e (fzero F) Hn Hz) as [X|[X|X]]; [congruence|exact X|]. specialize (X2 e (or_intror Hi)). rewrite <- X1 in X2. congruence.
Qed.

(** In any arithmetic: metrics exist exactly when the lengths agree, and on unweighted data they are, bit for bit, the losses "mse", "mae" and "rmse" of the search. *)
Theorem C58_no_panic : forall (T : Type) (F : FloatOps T) (LO : LossOps T) yhat y w,
  (exists mt, compute_metrics F LO yhat y w = Ok mt) <-> List.length yhat = List.length y /\ (forall ws, w = Some ws -> List.length ws = List.length y).
Proof. intros. split; [intros [mt H]; apply metrics_shape in H; tauto|]. intros [H1 H2]. apply metrics_total; auto. Qed.

Theorem C58_losses_agree : forall (T : Type) (F : FloatOps T) (LO : LossOps T) yhat y mt, compute_metrics F LO yhat y None = Ok mt ->
  lf_loss (make_loss F LO LMse) yhat y None = Ok (mt_mse mt) /\ lf_loss (make_loss F LO LMae) yhat y None = Ok (mt_mae mt)
  /\ lf_loss (make_loss F LO LRmse) yhat y None = Ok (mt_rmse mt).
Proof.
  intros T F LO yhat y mt H. apply metrics_shape in H as (Hl & _ & _ & Hrm & _ & _ & _ & He). cbv zeta in He. rewrite Hrm.
  assert (Hloss : forall p, mean_loss F LO p yhat y None = Ok (if (0 <? List.length y)%nat then fdiv F (fsum F (map (fun q => pl_loss p (fst q) (snd q)) (combine yhat y))) (lo_of_nat LO (List.length y)) else fzero F)).
  { intros p. unfold mean_loss. rewrite Hl, Nat.eqb_refl. cbn [assert_ bind]. destruct y as [|a y]; [reflexivity|]. rewrite zip_ok by auto. reflexivity. }
  assert (E : mt_mse mt = (if (0 <? List.length y)%nat then fdiv F (fsum F (map (fun q => pl_loss (squared_loss F LO) (fst q) (snd q)) (combine yhat y))) (lo_of_nat LO (List.length y)) else fzero F)
    /\ mt_mae mt = (if (0 <? List.length y)%nat then fdiv F (fsum F (map (fun q => pl_loss (abs_loss F LO) (fst q) (snd q)) (combine yhat y))) (lo_of_nat LO (List.length y)) else fzero F)).
  { destruct (Nat.ltb_spec 0 (List.length y)) as [Hp|Hp]; injection He as -> ->; [split; reflexivity|]. destruct y; [|cbn in Hp; lia]. destruct yhat; [|discriminate]. split; reflexivity. }
  destruct E as [-> ->]. cbn [make_loss]. unfold mean_of, rmse_loss. cbn [lf_loss]. rewrite !Hloss. cbn [bind]. auto.
Qed.

(** *** Looking a member up and evaluating it *)
(** The member shown for [id]: the one of least complexity in the hall of fame that carries it, else the best overall. *)
Definition shown {T} (st : search_st T) (id : nat) (m : member T) : Prop :=
  m_id m = id /\ ((exists k, stored (ss_hall st) k m /\ forall k' m', (k' < k)%nat -> stored (ss_hall st) k' m' -> m_id m' <> id)
                  \/ (m = ss_best st /\ forall k' m', stored (ss_hall st) k' m' -> m_id m' <> id)).

Lemma find_stored {T} (h : hof T) id m : find (fun m => m_id m =? id)%nat (hof_members h) = Some m <->
  m_id m = id /\ exists k, stored h k m /\ forall k' m', (k' < k)%nat -> stored h k' m' -> m_id m' <> id.
Proof.
  unfold stored. induction h as [|[x|] h IH]; cbn [hof_members find].
  - split; [discriminate|]. intros (_ & k & Hk & _). destruct k; discriminate.
  - destruct (Nat.eqb_spec (m_id x) id) as [E|N].
    + split.
      * intros [= <-]. split; auto. exists 0%nat. split; [reflexivity|]. intros k' m' Hk. lia.
      * intros (Hm & k & Hk & Hbefore). destruct k as [|k]; [injection Hk as <-; reflexivity|]. exfalso. apply (Hbefore 0%nat x); [lia|reflexivity|exact E].
    + rewrite IH. split; intros (Hm & k & Hk & Hbefore); (split; [exact Hm|]).
      * exists (S k). split; [exact Hk|]. intros [|k'] m' Hk' Hs; [injection Hs as <-; exact N|]. apply (Hbefore k' m'); [lia|exact Hs].
      * destruct k as [|k]; [injection Hk as <-; contradiction|]. exists k. split; [exact Hk|]. intros k' m' Hk' Hs. apply (Hbefore (S k') m'); [lia|exact Hs].
  - rewrite IH. split; intros (Hm & k & Hk & Hbefore); (split; [exact Hm|]).
    + exists (S k). split; [exact Hk|]. intros [|k'] m' Hk' Hs; [discriminate|]. apply (Hbefore k' m'); [lia|exact Hs].
    + destruct k as [|k]; [discriminate|]. exists k. split; [exact Hk|]. intros k' m' Hk' Hs. apply (Hbefore (S k') m'); [lia|exact Hs].
Qed.
Theorem C58_lookup : forall (T : Type) (st : search_st T) id,
  (forall m, find_member_by_id st id = Some m <-> shown st id m)
  /\ (find_member_by_id st id = None <-> m_id (ss_best st) <> id /\ forall k m, stored (ss_hall st) k m -> m_id m <> id).
Proof.
  intros T st id. unfold find_member_by_id, shown. destruct (find _ _) as [x|] eqn:Ef.
  - pose proof (proj1 (find_stored _ _ _) Ef) as (Hx & k & Hk & Hb). split.
    + intros m. split.
      * intros [= <-]. split; auto. left. eauto.
      * intros (Hm & [(k2 & Hk2 & Hb2)|[_ Hb2]]); [|exfalso; apply (Hb2 k x Hk Hx)]. rewrite <- Ef. apply find_stored. eauto.
    + split; [discriminate|]. intros [_ H]. exfalso. apply (H k x Hk Hx).
  - assert (Hno : forall k m, stored (ss_hall st) k m -> m_id m <> id).
    { intros k m Hs E. assert (Hi : In m (hof_members (ss_hall st))) by (apply in_hof_members; eauto). pose proof (find_none _ _ Ef m Hi) as Hn. cbn in Hn. apply Nat.eqb_neq in Hn. contradiction. }
    destruct (Nat.eqb_spec (m_id (ss_best st)) id) as [E|N].
    + split; [|split; [discriminate|intros [H _]; contradiction]]. intros m. split; [intros [= <-]; split; auto|]. intros (Hm & [(k & Hk & _)|[-> _]]); [exfalso; apply (Hno k m Hk Hm)|reflexivity].
    + split; [|split; auto]. intros m. split; [discriminate|]. intros (Hm & [(k & Hk & _)|[-> _]]); [exfalso; apply (Hno k m Hk Hm)|contradiction].
Qed.

(** Evaluating a member shown by the stepwise engine, on the training data or any other data with as many features: never a panic; the predictions are the values of
    the member's expression, with their metrics, unless some operator yields a value that is not finite. *)
Theorem C58_evaluate_member : forall (T W : Type) (S0 : search_cfg T W) full B en0 ns en ks d id,
  search_ok S0 full B -> engine_new S0 full = Ok en0 -> steps S0 en0 ns = Ok (en, ks) ->
  data_ok d -> ds_n_features d = ds_n_features full ->
  let C := eo_C (sc_E S0) in let out := evaluate_member (ec_F C) (ec_LO C) (ec_O C) (en_st en) d id in
  ((forall m, ~ shown (en_st en) id m) -> out = Ok None)
  /\ forall m, shown (en_st en) id m -> exists t, represents (m_expr m) t
     /\ (~ completes C d (m_expr m) t -> out = Ok None)
     /\ (completes C d (m_expr m) t -> exists mt, out = Ok (Some (mt, predictions C d (m_expr m) t))
         /\ compute_metrics (ec_F C) (ec_LO C) (predictions C d (m_expr m) t) (ds_y d) (ds_weights d) = Ok mt).
Proof.
  intros T W S0 full B en0 ns en ks d id HS Hn Hs (Hd & Hrows & Hnf) Hfe C out. destruct (C46_engine_sound T W S0 full B en0 ns en ks HS Hn Hs) as (_ & Hbest & _ & _ & Hhall).
  destruct (C58_lookup T (en_st en) id) as [Hl1 Hl2]. split.
  - intros Hno. unfold out, evaluate_member. destruct (find_member_by_id (en_st en) id) as [m|]; [|reflexivity]. exfalso. apply (Hno m), Hl1. reflexivity.
  - intros m Hm. assert (Hsound : sound (sc_E S0) (ds_n_features full) B (en_bl en0) m).
    { destruct Hm as (_ & [(k & Hk & _)|[-> _]]); [apply (Hhall k m Hk)|exact Hbest]. }
    apply Hl1 in Hm. destruct Hsound as [(t & Hr & Ht & Hsz & Hcs) Hp _ _]. pose proof (sk_evo _ _ _ HS) as He0. pose proof (ok_small _ _ _ _ He0) as Hsm.
    pose proof Hd as (D1 & D2 & D3 & D4 & D5). pose proof (flatten_ops t) as Hops. pose proof Hr as Hr'. unfold represents in Hr'. rewrite <- Hr' in Hops.
    assert (Hok : ok_tree (ec_O C) (ec_D C) (m_expr m) (ds_x d) t).
    { split; auto. rewrite D1, Hfe. eapply tree_ok_ops; [exact Ht|]. intros a op Ha Hi. eapply reg_known_known; [apply He0|auto|]. eapply tree_ok_known; eauto. }
    assert (Hfit : fits_u16 (m_expr m) (ds_x d) t) by (split; [rewrite D1; auto|split; lia]).
    exists t. split; [exact Hr|].
    destruct (compile_plan_spec (ec_D C) (m_nrows (ds_x d)) (List.length (consts (m_expr m))) (oknown (ec_O C)) (ec_hash C) t) as (is & s & E & HC); [apply Hok|apply Hfit|apply Hfit|pose proof (need_le_ops t); lia|].
    unfold plan_fresh in Hp. fold C in Hp. rewrite Hr', <- Hfe, <- D1, E in Hp. injection Hp as Hp.
    destruct (eval_plan_spec (ec_F C) (ec_O C) (ec_D C) (fill (ds_n_rows d) (fzero (ec_F C))) (m_expr m) (ds_x d) t (mkOpts true false) is s (ec_hash C (flatten t)) (zeros (ec_F C) 0 0) Hok D3)
      as (sc' & Ev & _); [rewrite fill_length; auto|exact HC|cbn; intros; reflexivity|].
    assert (Hfin : all_fin (ec_F C) (ec_O C) (m_expr m) (ds_x d) t = true <-> completes C d (m_expr m) t).
    { unfold all_fin, completes. rewrite andb_true_iff, (colfin_rows (ec_F C) (ec_O C) (m_expr m) (ds_x d) t) by (rewrite D2; auto). rewrite D2.
      assert (Hroot : root_fin (ec_F C) (m_expr m) t = true <-> forall i, t = TConst i -> ffinite (ec_F C) (const_at (ec_F C) (m_expr m) i) = true).
      { unfold root_fin. destruct t as [f|i|op ts]; split; auto; try discriminate. intros H j [= <-]. exact H. }
      rewrite Hroot. tauto. }
    unfold expected, kstop, kflag in Ev. cbn [check_finite early_exit] in Ev. rewrite andb_false_r in Ev. cbn [fst snd] in Ev.
    unfold out, evaluate_member. rewrite Hm. unfold eval_member_on_dataset. rewrite <- Hp.
    split; intros Hc.
    + destruct (all_fin (ec_F C) (ec_O C) (m_expr m) (ds_x d) t) eqn:Ea; [exfalso; tauto|]. cbn [andb negb] in Ev. rewrite Ev. reflexivity.
    + apply Hfin in Hc. rewrite Hc in Ev. cbn [andb negb] in Ev. rewrite Ev. cbn [bind orb fst snd]. assert (Ep : tab (m_ncols (ds_x d)) (value_at (ec_F C) (ec_O C) (m_expr m) (ds_x d) t) = predictions C d (m_expr m) t) by (unfold tab, predictions; rewrite D2; reflexivity).
      rewrite Ep. destruct (metrics_total (ec_F C) (ec_LO C) (predictions C d (m_expr m) t) (ds_y d) (ds_weights d)) as [mt Hmt].
      * unfold predictions. rewrite map_length, seq_length, D4. reflexivity.
      * intros ws Ew. rewrite (D5 ws Ew), D4. reflexivity.
      * rewrite Hmt. cbn [bind]. exists mt. split; reflexivity.
Qed.

(** The front is cut down to its last [k] equations, the most complex and most accurate ones. *)
Theorem C58_last : forall (A : Type) k (l : list A), exists dropped, l = dropped ++ last_of k l /\ List.length (last_of k l) = Nat.min k (List.length l).
Proof.
  intros A k l. unfold last_of. destruct (Nat.ltb_spec k (List.length l)).
  - exists (firstn (List.length l - k) l). rewrite firstn_skipn, skipn_length. split; [reflexivity|lia].
  - exists []. split; [reflexivity|lia].
Qed.

(** ** Cases *)
Example C58_case : (forall mt, compute_metrics rops rloss [1; 2] [1; 3] None = Ok mt -> mt_mse mt = 1 / 2 /\ mt_mae mt = 1 / 2 /\ mt_r2 mt = 1 / 2 /\ mt_corr mt = 1)
  /\ (exists mt, compute_metrics rops rloss [1; 2] [1; 3] None = Ok mt).
Proof.
  destruct (C58_metrics [1; 2] [1; 3] ltac:(discriminate) eq_refl) as (m0 & E & _ & H1 & H2 & _ & H3 & H4). split; [|eauto]. intros mt E0. rewrite E in E0. injection E0 as <-.
  assert (M3 : mean [1; 3] = 2) by (unfold mean, total; cbn [fold_right List.length INR]; lra). assert (M2 : mean [1; 2] = 3 / 2) by (unfold mean, total; cbn [fold_right List.length INR]; lra).
  split; [rewrite H1; unfold mean, residuals, over, square, total; cbn [combine map fst snd fold_right List.length INR]; lra|].
  split; [rewrite H2; unfold mean, residuals, over, total; cbn [combine map fst snd fold_right List.length INR]; rewrite (Rabs_left (2 - 3)), (Rabs_pos_eq (1 - 1)) by lra; lra|].
  split.
  - rewrite H3. unfold r_squared. rewrite M3. unfold residuals, over, from_, square, total. cbn [combine map fst snd fold_right]. destruct (Req_EM_T _ 0); lra.
  - rewrite H4. unfold pearson. rewrite M3, M2.
    assert (Va : total (map square (from_ (3 / 2) [1; 2])) = 1 / 2) by (unfold from_, square, total; cbn [map fold_right]; lra).
    assert (Vb : total (map square (from_ 2 [1; 3])) = 2) by (unfold from_, square, total; cbn [map fold_right]; lra).
    assert (Cv : total (weigh (from_ (3 / 2) [1; 2]) (from_ 2 [1; 3])) = 1) by (unfold weigh, over, from_, total; cbn [combine map fst snd fold_right]; lra).
    rewrite Va, Vb, Cv. destruct (Req_EM_T _ 0); [lra|]. destruct (Req_EM_T _ 0); [lra|]. rewrite <- sqrt_mult by lra. replace (1 / 2 * 2) with 1 by lra. rewrite sqrt_1. lra.
Qed.

(** Errors 0, 1 and 2, in exact arithmetic. *)
Example C58_extremes_case : let es := map (fun q => lo_abs xq_loss_ops (fsub xqops (fst q) (snd q))) (combine [XF 1%Q; XF 2%Q; XF 5%Q] [XF 1%Q; XF 3%Q; XF 3%Q]) in
  OrderLaws xqops /\ (forall e, In e es -> num xqops e /\ ffinite xqops e = true /\ fltb xqops e (fzero xqops) = false /\ fltb xqops e (finf xqops) = true)
  /\ num xqops (fzero xqops)
  /\ ok_of (fun mt => (mt_n mt, feqb xqops (mt_min_abs mt) (XF 0%Q), feqb xqops (mt_max_abs mt) (XF 2%Q))) (compute_metrics xqops xq_loss_ops [XF 1%Q; XF 2%Q; XF 5%Q] [XF 1%Q; XF 3%Q; XF 3%Q] None)
     = Some (3%nat, true, true).
Proof.
  split; [exact xq_order_laws|]. split; [|split; [reflexivity|vm_compute; reflexivity]].
  intros e [<-|[<-|[<-|[]]]]; vm_compute; auto.
Qed.

(** The demonstration search: the members of the hall of fame, evaluated on its data; no member has id 9. *)
Definition evaluated (S0 : search_cfg xq xq) (d : dataset xq) (en : @engine xq) (id : nat) : option (option (nat * nat)) :=
  let C := eo_C (sc_E S0) in
  ok_of (fun o => match o with Some (mt, yhat) => Some (mt_n mt, List.length yhat) | None => None end) (evaluate_member (ec_F C) (ec_LO C) (ec_O C) (en_st en) d id).
Definition after_steps {A} (f : @engine xq -> A) (S0 : search_cfg xq xq) (d : dataset xq) (ns : list nat) : option A :=
  match engine_new S0 d with Ok en0 => match steps S0 en0 ns with Ok (en, _) => Some (f en) | _ => None end | _ => None end.
Lemma after_steps_inv {A} (f : @engine xq -> A) S0 d ns x : after_steps f S0 d ns = Some x -> exists en0 en ks, engine_new S0 d = Ok en0 /\ steps S0 en0 ns = Ok (en, ks) /\ f en = x.
Proof.
  unfold after_steps. destruct (engine_new S0 d) as [en0| |]; try discriminate. destruct (steps S0 en0 ns) as [[en ks]| |] eqn:E; try discriminate. intros [= <-]. exists en0, en, ks. auto.
Qed.
Definition front_ids (en : @engine xq) : list nat := map m_id (hof_members (ss_hall (en_st en))).
Example C58_evaluate_case : search_ok (search_demo false) demo_data 9 /\ data_ok demo_data
  /\ exists en0 en ks, engine_new (search_demo false) demo_data = Ok en0 /\ steps (search_demo false) en0 [1; 2; 9]%nat = Ok (en, ks)
     /\ (front_ids en, map (evaluated (search_demo false) demo_data en) [0; 2; 9]%nat)
        = ([0; 2]%nat, [Some (Some (3, 3)); Some (Some (3, 3)); Some None]%nat).
Proof.
  split; [apply search_demo_ok|]. split; [apply demo_data_ok|].
  apply (after_steps_inv (fun en => (front_ids en, map (evaluated (search_demo false) demo_data en) [0; 2; 9]%nat)) (search_demo false) demo_data [1; 2; 9]%nat). vm_compute. reflexivity.
Qed.

(** An id need not single out a member of the hall of fame: simplifying a member in place keeps its id, so both forms may be stored, and the lookup finds the smaller. *)
Definition slot_and_lookup (k : nat) (en : @engine xq) : option (nat * nat) :=
  match nth_error (ss_hall (en_st en)) k with
  | Some (Some m) => match find_member_by_id (en_st en) (m_id m) with Some m' => Some (List.length (nodes (m_expr m)), List.length (nodes (m_expr m'))) | None => None end
  | _ => None
  end.
Lemma slot_and_lookup_inv k en a b : slot_and_lookup k en = Some (a, b) -> a <> b ->
  exists m m', stored (ss_hall (en_st en)) k m /\ find_member_by_id (en_st en) (m_id m) = Some m' /\ nodes (m_expr m') <> nodes (m_expr m).
Proof.
  unfold slot_and_lookup, stored. destruct (nth_error (ss_hall (en_st en)) k) as [[m|]|]; try discriminate. destruct (find_member_by_id (en_st en) (m_id m)) as [m'|] eqn:E2; [|discriminate].
  intros [= <- <-] Hne. exists m, m'. split; [reflexivity|]. split; [exact E2|]. congruence.
Qed.
Theorem C58_id_refuted : exists (S0 : search_cfg xq xq) full B en0 ns en ks k m m',
  search_ok S0 full B /\ data_ok full /\ engine_new S0 full = Ok en0 /\ steps S0 en0 ns = Ok (en, ks)
  /\ stored (ss_hall (en_st en)) k m /\ find_member_by_id (en_st en) (m_id m) = Some m' /\ nodes (m_expr m') <> nodes (m_expr m).
Proof.
  assert (E : after_steps (slot_and_lookup 7) missed_search demo_data [1; 2; 9]%nat = Some (Some (7, 5)%nat)) by (vm_compute; reflexivity).
  destruct (after_steps_inv (slot_and_lookup 7) missed_search demo_data [1; 2; 9]%nat _ E) as (en0 & en & ks & Hn & Hs & E1).
  destruct (slot_and_lookup_inv 7 en 7 5 E1) as (m & m' & H1 & H2 & H3); [discriminate|].
  exists missed_search, demo_data, 9%nat, en0, [1; 2; 9]%nat, en, ks, 7%nat, m, m'. exact (conj missed_ok (conj demo_data_ok (conj Hn (conj Hs (conj H1 (conj H2 H3)))))).
Qed.

Print Assumptions C58_metrics.
Print Assumptions C58_weighted.
Print Assumptions C58_bounds.
Print Assumptions C58_perfect.
Print Assumptions C58_weighted_corr_refuted.
Print Assumptions C58_extremes.
Print Assumptions C58_no_panic.
Print Assumptions C58_losses_agree.
Print Assumptions C58_lookup.
Print Assumptions C58_evaluate_member.
Print Assumptions C58_last.
Print Assumptions C58_id_refuted.
