(** Properties C41, C45: the web front end's datasets are the columns and rows of the CSV. *)
From Coq Require Import QArith Qround Qabs Lqa.
From Verif Require Import Base BaseLemmas Node Compile Eval EvalProofs EvalTop Rng Selection Dataset PropDataset PropSelection Wasm Instances.
Local Open Scope nat_scope.

(** ** Specification *)

(** Cell in row [i], column [c] of a table. *)
Definition cell {T} (rows : list (list T)) (i c : nat) : option T := match nth_error rows i with Some r => nth_error r c | None => None end.

(** [d] is the table restricted to target column [y], feature columns [xs], weights column [w]. *)
Definition columns_of {T} (rows : list (list T)) (y : nat) (xs : list nat) (d : dataset T) : Prop :=
  ds_n_rows d = List.length rows /\ ds_n_features d = List.length xs /\ dataset_ok d
  /\ (forall i, i < List.length rows -> target d i = cell rows i y)
  /\ (forall i j c, i < List.length rows -> nth_error xs j = Some c -> feature d i j = cell rows i c).

(** Row [i] of [a] is row [j] of [all] with the weights [w] attached. *)
Definition copied_row {T} (a : dataset T) (i : nat) (all : dataset T) (w : option (list T)) (j : nat) : Prop :=
  (forall f, f < ds_n_features all -> feature a i f = feature all j f) /\ target a i = target all j
  /\ weight a i = match w with Some w => nth_error w j | None => None end.

(** [a] consists of the rows of [all] listed in [idx], in that order. *)
Definition rows_of {T} (a : dataset T) (all : dataset T) (w : option (list T)) (idx : list nat) : Prop :=
  dataset_ok a /\ ds_n_features a = ds_n_features all /\ ds_n_rows a = List.length idx /\ (ds_weights a = None <-> w = None)
  /\ forall i j, nth_error idx i = Some j -> copied_row a i all w j.

(** Strictly increasing. *)
Fixpoint increasing (l : list nat) : Prop :=
  match l with [] => True | x :: l' => (forall y, In y l' -> x < y) /\ increasing l' end.

(** ** Lemmas *)
Section Select.
Context {T : Type} (F : FloatOps T) (of_nat : nat -> T).

(** Setting column [i] of a row-major matrix with [n] columns. *)
Lemma select_loop_spec (x : matrix T) (y : list T) (w : option (list T)) n : mat_ok x -> List.length y = m_ncols x ->
  (forall v, w = Some v -> List.length v = m_ncols x) ->
  forall idx i xo yo wo, i + List.length idx = n -> List.length xo = m_nrows x * n -> List.length yo = n ->
  (wo = None <-> w = None) -> (forall v, wo = Some v -> List.length v = n) -> (forall j, In j idx -> j < m_ncols x) ->
  exists xo' yo' wo', select_loop idx i n x y w xo yo wo = Ok (xo', yo', wo')
    /\ List.length xo' = m_nrows x * n /\ List.length yo' = n /\ (wo' = None <-> w = None) /\ (forall v, wo' = Some v -> List.length v = n)
    /\ (forall p j, nth_error idx p = Some j ->
          (forall f, f < m_nrows x -> nth_error xo' (f * n + (i + p)) = nth_error (m_data x) (f * m_ncols x + j))
          /\ nth_error yo' (i + p) = nth_error y j
          /\ match wo' with Some v => nth_error v (i + p) | None => None end = match w with Some v => nth_error v j | None => None end)
    /\ (forall p, p < i -> (forall f, f < m_nrows x -> nth_error xo' (f * n + p) = nth_error xo (f * n + p)) /\ nth_error yo' p = nth_error yo p
          /\ match wo' with Some v => nth_error v p | None => None end = match wo with Some v => nth_error v p | None => None end).
Proof.
  intros Hx Hy Hw. unfold mat_ok in Hx. induction idx as [|j0 idx IH]; intros i xo yo wo Hi Hxo Hyo Hwo Hwl Hr.
  - exists xo, yo, wo. cbn. do 5 (split; auto). split; [intros [|p] j H; discriminate|]. auto.
  - cbn [select_loop]. cbn [List.length] in Hi. assert (Hj0 : j0 < m_ncols x) by (apply Hr; left; auto).
    destruct (assign_column_spec (m_data x) (m_ncols x) j0 n i Hj0 ltac:(lia) (m_nrows x) 0 xo) as (x1 & E1 & L1 & In1 & Out1); [cbn; lia|cbn; lia|].
    rewrite E1. cbn [bind]. unfold index. destruct (nth_error y j0) as [v|] eqn:Ey; [|apply nth_error_None in Ey; lia]. cbn [expect bind].
    unfold set_index. destruct (Nat.ltb_spec i (List.length yo)); [|lia]. cbn [bind].
    assert (Hw1 : exists wo1, (match w, wo with
                 | Some w_in, Some w_out => let! v := expect (nth_error w_in j0) in let! w_out := (if i <? List.length w_out then Ok (upd w_out i v) else Panic) in Ok (Some w_out)
                 | _, _ => Ok wo end) = Ok wo1 /\ (wo1 = None <-> w = None) /\ (forall v, wo1 = Some v -> List.length v = n)
                 /\ match wo1 with Some v => nth_error v i | None => None end = match w with Some v => nth_error v j0 | None => None end
                 /\ forall p, p <> i -> match wo1 with Some v => nth_error v p | None => None end = match wo with Some v => nth_error v p | None => None end).
    { destruct w as [wi|], wo as [wv|].
      - specialize (Hw wi eq_refl). specialize (Hwl wv eq_refl). destruct (nth_error wi j0) as [u|] eqn:Eu; [|apply nth_error_None in Eu; lia]. cbn [expect bind].
        destruct (Nat.ltb_spec i (List.length wv)); [|lia]. cbn [bind]. eexists. split; [reflexivity|]. split; [split; discriminate|].
        split; [intros v0 [= <-]; rewrite upd_length; auto|]. split; [rewrite nth_error_upd_same; auto; lia|]. intros p Hp. apply nth_error_upd_other. auto.
      - exfalso. destruct Hwo as [Hwo _]. discriminate Hwo. reflexivity.
      - exfalso. destruct Hwo as [_ Hwo]. discriminate Hwo. reflexivity.
      - exists None. repeat split; auto; discriminate. }
    destruct Hw1 as (wo1 & Ew & N1 & Lw1 & Wi & Wo). unfold set_index. rewrite Ew. cbn [bind].
    destruct (IH (S i) x1 (upd yo i v) wo1) as (xo' & yo' & wo' & E & Lx & Ly & Nw & Lw & New & Old); [lia|rewrite L1; exact Hxo|rewrite upd_length; exact Hyo|exact N1|exact Lw1|intros j Hj; apply Hr; right; auto|].
    exists xo', yo', wo'. split; [exact E|]. split; [exact Lx|]. split; [exact Ly|]. split; [exact Nw|]. split; [exact Lw|]. split.
    + intros [|p] j Hn; cbn in Hn.
      * injection Hn as <-. destruct (Old i ltac:(lia)) as (O1 & O2 & O3). rewrite Nat.add_0_r. split; [|split].
        -- intros f Hf. rewrite O1 by auto. apply In1. lia.
        -- rewrite O2, nth_error_upd_same by lia. auto.
        -- rewrite O3. exact Wi.
      * replace (i + S p) with (S i + p) by lia. apply New. exact Hn.
    + intros p Hp. destruct (Old p ltac:(lia)) as (O1 & O2 & O3). split; [|split].
      * intros f Hf. rewrite O1 by auto. apply Out1. intros g Hg Heq. assert (Hlt : p < n /\ i < n) by lia. destruct Hlt as [Hp1 Hi1].
        assert (f = g) by nia. subst. lia.
      * rewrite O2. apply nth_error_upd_other. lia.
      * rewrite O3. apply Wo. lia.
Qed.

Lemma avg_total (y : list T) w : (forall v, w = Some v -> List.length v = List.length y) -> exists a, compute_avg_y F of_nat y w = Ok a.
Proof.
  intros Hw. unfold compute_avg_y. destruct y as [|y0 y]; [eauto|]. destruct w as [v|]; [|eauto]. specialize (Hw v eq_refl). unfold zip_eq.
  rewrite Hw, Nat.eqb_refl. cbn [bind]. eauto.
Qed.

Lemma build_ok (x : matrix T) y w : mat_ok x -> List.length y = m_ncols x -> (forall v, w = Some v -> List.length v = m_ncols x) ->
  exists a, build_dataset F of_nat x y w None = Ok (mkData x y (m_nrows x) (m_ncols x) w a) /\ dataset_ok (mkData x y (m_nrows x) (m_ncols x) w a).
Proof.
  intros Hx Hy Hw. unfold build_dataset. rewrite Hy, Nat.eqb_refl. cbn [assert_ bind].
  assert (E : (match w with Some w => assert_ (List.length w =? m_ncols x) | None => Ok tt end) = Ok tt).
  { destruct w as [v|]; auto. rewrite (Hw v eq_refl), Nat.eqb_refl. reflexivity. }
  rewrite E. cbn [bind]. destruct (avg_total y w) as (a & Ea); [intros v Hv; rewrite (Hw v Hv), Hy; reflexivity|]. rewrite Ea. cbn [bind].
  exists a. split; auto. unfold dataset_ok. cbn. repeat split; auto.
Qed.

Lemma select_rows_spec (all : dataset T) w idx : dataset_ok all -> (forall v, w = Some v -> List.length v = ds_n_rows all) ->
  (forall j, In j idx -> j < ds_n_rows all) ->
  exists x y wt d, select_rows F (ds_x all) (ds_y all) w idx = Ok (Some (x, y, wt)) /\ build_dataset F of_nat x y wt None = Ok d /\ rows_of d all w idx.
Proof.
  intros (A1 & A2 & A3 & A4 & A5) Hw Hj. unfold select_rows.
  assert (E : existsb (fun i => m_ncols (ds_x all) <=? i) idx = false).
  { apply not_true_is_false. intros H. apply existsb_exists in H as (j & Hin & H). apply Nat.leb_le in H. apply Hj in Hin. lia. }
  rewrite E. cbv zeta. set (n := List.length idx).
  destruct (select_loop_spec (ds_x all) (ds_y all) w n A3 ltac:(lia) ltac:(intros v Hv; rewrite A2; auto) idx 0
    (fill (m_nrows (ds_x all) * n) (fzero F)) (fill n (fzero F)) (match w with Some _ => Some (fill n (fzero F)) | None => None end))
    as (xo & yo & wo & El & Lx & Ly & Nw & Lw & New & _).
  - reflexivity.
  - apply fill_length.
  - apply fill_length.
  - destruct w; split; congruence.
  - intros v Hv. destruct w; [injection Hv as <-; apply fill_length|discriminate].
  - intros j Hin. rewrite A2. auto.
  - rewrite El. cbn [bind].
    destruct (build_ok (mkMat xo (m_nrows (ds_x all)) n) yo wo) as (a & Eb & Ok1); [exact Lx|exact Ly|exact Lw|].
    do 4 eexists. split; [reflexivity|]. split; [exact Eb|]. split; [exact Ok1|]. cbn. split; [exact A1|]. split; [reflexivity|]. split; [exact Nw|].
    intros i j H. destruct (New i j H) as (N1 & N2 & N3). unfold copied_row, feature, target, weight. cbn. split; [|split; auto].
    intros f Hf. rewrite <- A2. apply N1. lia.
Qed.
End Select.

(** ** C41 *)

(** The split is a partition of the rows: every row is in exactly one of the two lists, once; the validation list has the rounded size. *)
Theorem C41_partition : forall (W : Type) n rounded (r : rng W),
  exists val train, make_split_indices n rounded r = Ok (val, train)
    /\ Permutation (seq 0 n) (val ++ train)
    /\ List.length val = Nat.min (rounded n) n /\ List.length train = n - List.length val.
Proof.
  intros W n rounded r. unfold make_split_indices. destruct (Nat.eqb_spec n 0) as [->|Hn]; [exists [], []; cbn; repeat split; auto; lia|].
  destruct (Nat.eqb_spec (Nat.min (rounded n) n) 0) as [E0|E0].
  - exists [], (seq 0 n). rewrite E0. cbn. rewrite seq_length. repeat split; auto; lia.
  - destruct (C36_shuffle_is_permutation r (seq 0 n)) as (idx & r' & E & P). rewrite E. cbn [bind]. do 2 eexists. split; [reflexivity|].
    rewrite firstn_skipn, firstn_length, skipn_length. apply Permutation_length in P as L. rewrite seq_length in L. rewrite <- L. repeat split; auto; lia.
Qed.

(** Splitting never fails, and the two datasets are made of exactly those rows, with features, target and weight copied. *)
Theorem C41_faithful : forall (T : Type) (F : FloatOps T) of_nat (all : dataset T) w val train,
  dataset_ok all -> (forall v, w = Some v -> List.length v = ds_n_rows all) ->
  (forall j, In j (val ++ train) -> j < ds_n_rows all) ->
  exists a b, split_train_val F of_nat all w (val, train) = Ok (Some (a, b)) /\ rows_of a all w train
    /\ match b with None => val = [] | Some b => val <> [] /\ rows_of b all w val end.
Proof.
  intros T F of_nat all w val train Ha Hw Hj. unfold split_train_val. cbn [fst snd].
  destruct (select_rows_spec F of_nat all w train Ha Hw) as (x & y & wt & d & E1 & E2 & R); [intros j Hin; apply Hj, in_or_app; auto|].
  rewrite E1. cbn [bind]. rewrite E2. cbn [bind]. destruct val as [|v0 val]; [exists d, None; auto|].
  destruct (select_rows_spec F of_nat all w (v0 :: val) Ha Hw) as (x2 & y2 & wt2 & d2 & E3 & E4 & R2); [intros j Hin; apply Hj, in_or_app; auto|].
  rewrite E3. cbn [bind]. rewrite E4. cbn [bind]. exists d, (Some d2). split; auto. split; auto. split; [discriminate|auto].
Qed.

(** An index out of range is refused. *)
Theorem C41_out_of_range : forall (T : Type) (F : FloatOps T) of_nat (all : dataset T) w val train j,
  m_ncols (ds_x all) <= j -> In j train -> split_train_val F of_nat all w (val, train) = Ok None.
Proof.
  intros T F of_nat all w val train j Hj Hin. unfold split_train_val. cbn [fst snd]. unfold select_rows.
  assert (E : existsb (fun i => m_ncols (ds_x all) <=? i) train = true) by (apply existsb_exists; exists j; split; auto; apply Nat.leb_le; auto).
  rewrite E. reflexivity.
Qed.

(** ** Proportions, with the product and the rounding of line 654 done exactly (in binary64 the product is rounded first). *)
Definition clamp09 (f : Q) : Q := if Qle_bool f 0 then 0%Q else if Qle_bool (9 # 10) f then (9 # 10)%Q else f.
Definition rounded_q (f : Q) (n : nat) : nat := Z.to_nat (Qfloor (clamp09 f * inject_Z (Z.of_nat n) + (1 # 2))).

Lemma clamp09_range f : (0 <= clamp09 f /\ clamp09 f <= 9 # 10)%Q.
Proof.
  unfold clamp09. destruct (Qle_bool f 0) eqn:E1; [split; discriminate|]. destruct (Qle_bool (9 # 10) f) eqn:E2; [split; discriminate|].
  assert (~ (f <= 0)%Q) by (rewrite <- Qle_bool_iff; congruence). assert (~ ((9 # 10) <= f)%Q) by (rewrite <- Qle_bool_iff; congruence).
  split; apply Qlt_le_weak; apply Qnot_le_lt; auto.
Qed.
Lemma rounded_q_spec f n : (Qabs (inject_Z (Z.of_nat (rounded_q f n)) - clamp09 f * inject_Z (Z.of_nat n)) <= 1 # 2)%Q.
Proof.
  unfold rounded_q. destruct (clamp09_range f) as [C0 _]. set (q := (clamp09 f * inject_Z (Z.of_nat n))%Q).
  assert (Hq : (0 <= q)%Q) by (apply Qmult_le_0_compat; auto; change 0%Q with (inject_Z 0); rewrite <- Zle_Qle; lia).
  clearbody q. pose proof (Qfloor_le (q + (1 # 2))) as H1. pose proof (Qlt_floor (q + (1 # 2))) as H2.
  assert (Hf : (0 <= Qfloor (q + (1 # 2)))%Z).
  { change 0%Z with (Qfloor 0). apply Qfloor_resp_le. apply Qle_trans with (q + 0)%Q; [rewrite Qplus_0_r; auto|]. apply Qplus_le_r. discriminate. }
  rewrite Z2Nat.id by auto. rewrite inject_Z_plus in H2. change (inject_Z 1) with 1%Q in H2. set (z := inject_Z (Qfloor (q + (1 # 2)))) in *. clearbody z.
  apply Qabs_Qle_condition. split.
  - apply Qplus_le_l with (z := (q + (1 # 2))%Q). apply Qlt_le_weak. ring_simplify. ring_simplify in H2. eapply Qlt_le_trans; [|apply Qle_refl].
    apply Qplus_lt_r with (z := (1#2)%Q). ring_simplify. ring_simplify in H2. eapply Qlt_le_trans; [exact H2|]. ring_simplify. apply Qle_refl.
  - apply Qplus_le_l with (z := q). ring_simplify. ring_simplify in H1. exact H1.
Qed.
Lemma rounded_q_le f n : rounded_q f n <= n /\ (6 <= n -> rounded_q f n < n).
Proof.
  destruct (clamp09_range f) as [C0 C1]. pose proof (rounded_q_spec f n) as H. apply Qabs_Qle_condition in H as [_ H].
  assert (Hn : (0 <= inject_Z (Z.of_nat n))%Q) by (change 0%Q with (inject_Z 0); rewrite <- Zle_Qle; lia).
  assert (Hm : (clamp09 f * inject_Z (Z.of_nat n) <= (9 # 10) * inject_Z (Z.of_nat n))%Q) by (apply Qmult_le_compat_r; auto).
  set (p := (clamp09 f * inject_Z (Z.of_nat n))%Q) in *. clearbody p.
  assert (Hz : forall a b, (inject_Z (Z.of_nat a) < inject_Z (Z.of_nat b) + 1)%Q -> a <= b).
  { intros a b Hab. change 1%Q with (inject_Z 1) in Hab. rewrite <- inject_Z_plus, <- Zlt_Qlt in Hab. lia. }
  split.
  - apply Hz. lra.
  - intros H6. assert (H6q : (6 <= inject_Z (Z.of_nat n))%Q) by (change 6%Q with (inject_Z 6); rewrite <- Zle_Qle; lia).
    assert (Hlt : (inject_Z (Z.of_nat (rounded_q f n)) < inject_Z (Z.of_nat n))%Q) by lra. rewrite <- Zlt_Qlt in Hlt. lia.
Qed.

(** The validation set has the requested share of the rows, to within half a row; from six rows on, the training set is never empty. *)
Theorem C41_proportions : forall (W : Type) n f (r : rng W), exists val train,
  make_split_indices n (rounded_q f) r = Ok (val, train)
  /\ (Qabs (inject_Z (Z.of_nat (List.length val)) - clamp09 f * inject_Z (Z.of_nat n)) <= 1 # 2)%Q
  /\ (6 <= n -> train <> []).
Proof.
  intros W n f r. destruct (C41_partition W n (rounded_q f) r) as (val & train & E & _ & L1 & L2). exists val, train. split; auto.
  destruct (rounded_q_le f n) as [R1 R2]. rewrite Nat.min_l in L1 by auto. rewrite L1 in *. split; [apply rounded_q_spec|].
  intros H ->. apply R2 in H. cbn in L2. lia.
Qed.
(** With five rows and the largest fraction the training set is empty: the search then starts without data. *)
Theorem C41_training_may_be_empty_refuted : forall (W : Type) (r : rng W), exists val,
  make_split_indices 5 (rounded_q (9 # 10)) r = Ok (val, []) /\ List.length val = 5.
Proof.
  intros W r. destruct (C41_partition W 5 (rounded_q (9 # 10)) r) as (val & train & E & _ & L1 & L2).
  assert (R : rounded_q (9 # 10) 5 = 5) by reflexivity. rewrite R in L1. cbn in L1. rewrite L1 in L2. cbn in L2. destruct train; [|discriminate]. eauto.
Qed.

(** ** C45: the dataset built from a CSV table *)
Lemma insert_in x y l : In y (insert_sorted x l) <-> y = x \/ In y l.
Proof. induction l as [|z l IH]; cbn; [intuition|]. destruct (x <=? z); cbn; [intuition|]. rewrite IH. intuition. Qed.
Lemma sort_in y l : In y (sort_nats l) <-> In y l.
Proof. induction l as [|x l IH]; cbn; [tauto|]. rewrite insert_in, IH. intuition. Qed.
Fixpoint sorted (l : list nat) : Prop := match l with [] => True | x :: l' => (forall y, In y l' -> x <= y) /\ sorted l' end.
Lemma insert_is_sorted x l : sorted l -> sorted (insert_sorted x l).
Proof.
  induction l as [|z l IH]; cbn; [tauto|]. intros [H1 H2]. destruct (Nat.leb_spec x z); cbn.
  - split; auto. intros y [->|Hy]; auto. apply H1 in Hy. lia.
  - split; auto. intros y Hy. apply insert_in in Hy as [->|Hy]; [lia|auto].
Qed.
Lemma sort_sorted l : sorted (sort_nats l).
Proof. induction l; cbn; auto. apply insert_is_sorted. auto. Qed.
Lemma dedup_in y l : In y (dedup l) <-> In y l.
Proof.
  induction l as [|x l IH]; [tauto|]. cbn [dedup]. destruct l as [|z l]; [tauto|]. destruct (Nat.eqb_spec x z) as [->|]; [rewrite IH; cbn; intuition|].
  split; (intros [H|H]; [left; exact H|right; apply IH; exact H]).
Qed.
Lemma dedup_increasing l : sorted l -> increasing (dedup l).
Proof.
  induction l as [|x l IH]; [cbn; auto|]. intros [H1 H2]. cbn [dedup]. destruct l as [|z l]; [cbn; auto; split; auto; intros ? []|].
  destruct (Nat.eqb_spec x z); [auto|]. cbn [increasing]. split; auto. intros y Hy. apply (proj1 (dedup_in _ _)) in Hy. pose proof (H1 z (or_introl eq_refl)).
  destruct H2 as [H2 _]. cbn [In] in Hy. destruct Hy as [<-|Hy]; [lia|]. apply H2 in Hy. lia.
Qed.

(** The columns asked for are usable: a table with at least two columns, all rows of one width; the target, weight and feature columns exist and differ. *)
Record usable {T} (rows : list (list T)) (c : columns) (n_cols y : nat) : Prop := {
  us_rows : rows <> [];
  us_wide : 2 <= n_cols;
  us_rect : forall r, In r rows -> List.length r = n_cols;
  us_y : y = match cl_y c with Some y => y | None => n_cols - 1 end /\ y < n_cols;
  us_w : forall w, cl_w c = Some w -> w < n_cols /\ w <> y;
  us_x : forall v, cl_x c = Some v -> v <> [] /\ (forall i, In i v -> i < n_cols /\ i <> y /\ cl_w c <> Some i);
  us_x0 : cl_x c = None -> exists i, i < n_cols /\ i <> y /\ cl_w c <> Some i }.
(** The feature columns: those asked for, or all the others, in increasing order. *)
Definition features_of (c : columns) (n_cols y : nat) (xs : list nat) : Prop :=
  increasing xs /\ forall i, In i xs <-> match cl_x c with Some v => In i v | None => i < n_cols /\ i <> y /\ cl_w c <> Some i end.

Lemma feature_columns_spec c n y : features_of c n y (feature_columns c n y).
Proof.
  unfold features_of, feature_columns. split; [apply dedup_increasing, sort_sorted|]. intros i. rewrite dedup_in, sort_in. destruct (cl_x c) as [v|]; [tauto|].
  rewrite filter_In, in_seq, andb_true_iff, !negb_true_iff, Nat.eqb_neq. destruct (cl_w c) as [w|].
  - rewrite Nat.eqb_neq. split; [intros (H1 & H2 & H3); repeat split; [lia|auto|congruence]|intros (H1 & H2 & H3); repeat split; [lia|lia|auto|congruence]].
  - split; [intros (H1 & H2 & H3); repeat split; [lia|auto|discriminate]|intros (H1 & H2 & H3); repeat split; auto; lia].
Qed.

Lemma checked_spec {T} (rows : list (list T)) c : match checked_columns rows c with
  | Some (y, w, xs) => exists n, usable rows c n y /\ w = cl_w c /\ features_of c n y xs /\ (match rows with [] => 0 | r :: _ => List.length r end) = n
      /\ xs <> [] /\ (forall i, In i xs -> i < n /\ i <> y /\ cl_w c <> Some i)
  | None => forall n y, ~ usable rows c n y
  end.
Proof.
  unfold checked_columns. destruct rows as [|first rows]; [intros n y []; congruence|].
  set (n := List.length first). cbv zeta.
  assert (Hn : forall n' y, usable (first :: rows) c n' y -> n' = n /\ y = match cl_y c with Some y => y | None => n - 1 end).
  { intros n' y U. assert (n' = n) by (symmetry; apply (us_rect _ _ _ _ U first); left; auto). subst. split; auto. destruct (us_y _ _ _ _ U) as [H _]. exact H. }
  destruct (Nat.ltb_spec n 2) as [H2|H2]; [intros n' y U; apply Hn in U as E; destruct E as [-> _]; destruct U; lia|].
  destruct (existsb _ (first :: rows)) eqn:Er.
  { intros n' y U. apply Hn in U as E. destruct E as [-> _]. apply existsb_exists in Er as (r & Hin & Hr). apply (us_rect _ _ _ _ U) in Hin. rewrite Hin, Nat.eqb_refl in Hr. discriminate. }
  set (y := match cl_y c with Some y => y | None => n - 1 end) in *.
  destruct (Nat.leb_spec n y) as [Hy|Hy]; [intros n' y' U; apply Hn in U as E; destruct E as [-> ->]; destruct U as [_ _ _ [_ H] _ _ _]; lia|].
  destruct (match cl_w c with Some w => (n <=? w) || (w =? y) | None => false end) eqn:Ew.
  { intros n' y' U. apply Hn in U as E. destruct E as [-> ->]. destruct (cl_w c) as [w|] eqn:Ec; [|discriminate]. destruct (us_w _ _ _ _ U w Ec) as [W1 W2].
    apply orb_true_iff in Ew as [Ew|Ew]; [apply Nat.leb_le in Ew; lia|apply Nat.eqb_eq in Ew; auto]. }
  pose proof (feature_columns_spec c n y) as Hfc. set (xs := feature_columns c n y) in *. destruct Hfc as [Hinc Hin].
  assert (Hbad : forall i, In i xs -> forall U : usable (first :: rows) c n y, i < n /\ i <> y /\ cl_w c <> Some i).
  { intros i Hi U. apply Hin in Hi. destruct (cl_x c) as [v|] eqn:Ev; auto. apply (us_x _ _ _ _ U v Ev). auto. }
  clearbody xs. destruct xs as [|x0 xs'].
  { intros n' y' U. apply Hn in U as E. destruct E as [-> ->]. destruct (cl_x c) as [v|] eqn:Ev.
    - destruct (us_x _ _ _ _ U v Ev) as [Hv _]. destruct v as [|v0 v]; [congruence|]. apply (proj2 (Hin v0)). left; auto.
    - destruct (us_x0 _ _ _ _ U Ev) as (i & Hi). apply (proj2 (Hin i)). auto. }
  assert (Hne : x0 :: xs' <> []) by discriminate. remember (x0 :: xs') as xs eqn:E0. clear E0 x0 xs'.
  destruct (existsb (fun i => n <=? i) xs) eqn:E1.
  { intros n' y' U. apply Hn in U as E. destruct E as [-> ->]. apply existsb_exists in E1 as (i & Hi & Hle). apply Nat.leb_le in Hle. apply (Hbad i Hi) in U. lia. }
  destruct (existsb (Nat.eqb y) xs) eqn:E2.
  { intros n' y' U. apply Hn in U as E. destruct E as [-> ->]. apply existsb_exists in E2 as (i & Hi & Hle). apply Nat.eqb_eq in Hle. apply (Hbad i Hi) in U. intuition. }
  destruct (match cl_w c with Some w => existsb (Nat.eqb w) xs | None => false end) eqn:E3.
  { intros n' y' U. apply Hn in U as E. destruct E as [-> ->]. destruct (cl_w c) as [w|] eqn:Ec; [|discriminate]. apply existsb_exists in E3 as (i & Hi & Hle). apply Nat.eqb_eq in Hle. subst i.
    apply (Hbad w Hi) in U. intuition. }
  assert (Hall : forall i, In i xs -> i < n /\ i <> y /\ cl_w c <> Some i).
  { intros i Hi. split; [|split].
    - destruct (Nat.lt_ge_cases i n); auto. exfalso. enough (existsb (fun i => n <=? i) xs = true) by congruence. apply existsb_exists. exists i. split; auto. apply Nat.leb_le. auto.
    - intros ->. enough (existsb (Nat.eqb y) xs = true) by congruence. apply existsb_exists. exists y. split; auto. apply Nat.eqb_refl.
    - intros Ec. rewrite Ec in E3. enough (existsb (Nat.eqb i) xs = true) by congruence. apply existsb_exists. exists i. split; auto. apply Nat.eqb_refl. }
  exists n. split; [|split; [auto|split; [split; auto|split; [reflexivity|split; auto]]]].
  constructor; auto; [discriminate| | | |].
  - intros r Hr. destruct (Nat.eq_dec (List.length r) n); auto. exfalso. enough (existsb (fun row => negb (List.length row =? n)) (first :: rows) = true) by congruence.
    apply existsb_exists. exists r. split; auto. apply negb_true_iff, Nat.eqb_neq. auto.
  - intros w Ec. rewrite Ec in Ew. apply orb_false_iff in Ew as [W1 W2]. apply Nat.leb_gt in W1. apply Nat.eqb_neq in W2. auto.
  - intros v Ev. rewrite Ev in Hin. split; [intros ->; destruct xs as [|i xs]; [congruence|]; destruct (proj1 (Hin i)); left; auto|]. intros i Hi. apply Hall, Hin. auto.
  - intros Ev. rewrite Ev in Hin. destruct xs as [|i xs]; [congruence|]. exists i. apply Hin. left; auto.
Qed.

Section Store.
Context {T : Type}.
Lemma store_features_spec (row : list T) i n : i < n -> forall cols j x, (forall c, In c cols -> c < List.length row) -> (j + List.length cols) * n <= List.length x ->
  exists x', store_features row cols j i n x = Ok x' /\ List.length x' = List.length x
    /\ (forall k c, nth_error cols k = Some c -> nth_error x' ((j + k) * n + i) = nth_error row c)
    /\ (forall p, (forall k, k < List.length cols -> p <> (j + k) * n + i) -> nth_error x' p = nth_error x p).
Proof.
  intros Hi. induction cols as [|c cols IH]; intros j x Hc Hx; [exists x; cbn; repeat split; auto; intros [|k] c H; discriminate|].
  cbn [store_features]. unfold index. destruct (nth_error row c) as [v|] eqn:Ev; [|apply nth_error_None in Ev; specialize (Hc c (or_introl eq_refl)); lia]. cbn [expect bind].
  cbn [List.length] in Hx. unfold set_index. destruct (Nat.ltb_spec (j * n + i) (List.length x)) as [Hlt|Hge]; [|nia]. cbn [bind].
  destruct (IH (S j) (upd x (j * n + i) v)) as (x' & E & L & New & Old); [intros c' H'; apply Hc; right; auto|rewrite upd_length; nia|].
  exists x'. rewrite upd_length in L. split; [exact E|]. split; [exact L|]. split.
  - intros [|k] c' Hk; cbn in Hk.
    + injection Hk as <-. rewrite Nat.add_0_r, Old by (intros k Hk Heq; nia). rewrite nth_error_upd_same by auto. auto.
    + replace (j + S k) with (S j + k) by lia. apply New. auto.
  - intros p Hp. rewrite Old by (intros k Hk; replace (S j + k) with (j + S k) by lia; apply Hp; cbn; lia). apply nth_error_upd_other.
    intros Heq. apply (Hp 0); [cbn; lia|]. rewrite Nat.add_0_r. auto.
Qed.

Lemma store_rows_spec (cols : list nat) y_col w_col n nc : (forall c, In c cols -> c < nc) -> y_col < nc -> (forall w, w_col = Some w -> w < nc) ->
  forall (rows : list (list T)) i (x y : list T) (w : option (list T)), (forall r, In r rows -> List.length r = nc) -> i + List.length rows = n ->
  List.length x = List.length cols * n -> List.length y = n -> (w = None <-> w_col = None) -> (forall v, w = Some v -> List.length v = n) ->
  exists x' y' w', store_rows rows cols y_col w_col i n x y w = Ok (x', y', w') /\ List.length x' = List.length cols * n /\ List.length y' = n
    /\ (w' = None <-> w_col = None) /\ (forall v, w' = Some v -> List.length v = n)
    /\ (forall p r, nth_error rows p = Some r ->
          (forall k c, nth_error cols k = Some c -> nth_error x' (k * n + (i + p)) = nth_error r c)
          /\ nth_error y' (i + p) = nth_error r y_col
          /\ forall v wc, w' = Some v -> w_col = Some wc -> nth_error v (i + p) = nth_error r wc)
    /\ (forall p, p < i -> (forall k, k < List.length cols -> nth_error x' (k * n + p) = nth_error x (k * n + p)) /\ nth_error y' p = nth_error y p
          /\ forall v v', w = Some v -> w' = Some v' -> nth_error v' p = nth_error v p).
Proof.
  intros Hc Hy Hw. induction rows as [|r rows IH]; intros i x y w Hr Hi Lx Ly Nw Lw.
  - exists x, y, w. cbn. do 5 (split; auto). split; [intros [|p] r H; discriminate|]. intros p Hp. do 2 (split; auto). congruence.
  - cbn [store_rows]. cbn [List.length] in Hi. assert (Hlr : List.length r = nc) by (apply Hr; left; auto).
    destruct (store_features_spec r i n ltac:(lia) cols 0 x) as (x1 & E1 & L1 & New1 & Old1); [intros c Hin; rewrite Hlr; auto|cbn; lia|].
    rewrite E1. cbn [bind]. unfold index. destruct (nth_error r y_col) as [v|] eqn:Ev; [|apply nth_error_None in Ev; lia]. cbn [expect bind].
    unfold set_index. destruct (Nat.ltb_spec i (List.length y)); [|lia]. cbn [bind].
    assert (Hw1 : exists w1, (match w_col, w with
                | Some wc, Some wa => let! v := expect (nth_error r wc) in let! wa := (if i <? List.length wa then Ok (upd wa i v) else Panic) in Ok (Some wa)
                | _, _ => Ok w end) = Ok w1 /\ (w1 = None <-> w_col = None) /\ (forall v, w1 = Some v -> List.length v = n)
                /\ (forall v wc, w1 = Some v -> w_col = Some wc -> nth_error v i = nth_error r wc)
                /\ forall p v v', p <> i -> w = Some v -> w1 = Some v' -> nth_error v' p = nth_error v p).
    { destruct w_col as [wc|], w as [wa|].
      - specialize (Hw wc eq_refl). specialize (Lw wa eq_refl). destruct (nth_error r wc) as [u|] eqn:Eu; [|apply nth_error_None in Eu; lia]. cbn [expect bind].
        destruct (Nat.ltb_spec i (List.length wa)); [|lia]. cbn [bind]. eexists. split; [reflexivity|]. split; [split; discriminate|].
        split; [intros v0 [= <-]; rewrite upd_length; auto|]. split; [intros v0 wc0 [= <-] [= <-]; rewrite nth_error_upd_same; auto; lia|].
        intros p v0 v' Hp [= <-] [= <-]. apply nth_error_upd_other. auto.
      - exfalso. destruct Nw as [Nw _]. discriminate Nw. reflexivity.
      - exfalso. destruct Nw as [_ Nw]. discriminate Nw. reflexivity.
      - exists None. do 2 (split; auto; try tauto). split; [discriminate|]. split; discriminate. }
    destruct Hw1 as (w1 & Ew & N1 & Lw1 & Wi & Wo). unfold set_index. rewrite Ew. cbn [bind].
    destruct (IH (S i) x1 (upd y i v) w1) as (x' & y' & w' & E & Lx' & Ly' & Nw' & Lw' & New & Old); [intros r' H'; apply Hr; right; auto|lia|rewrite L1; exact Lx|rewrite upd_length; exact Ly|exact N1|exact Lw1|].
    exists x', y', w'. split; [exact E|]. split; [exact Lx'|]. split; [exact Ly'|]. split; [exact Nw'|]. split; [exact Lw'|]. split.
    + intros [|p] r0 Hp; cbn in Hp.
      * injection Hp as <-. destruct (Old i ltac:(lia)) as (O1 & O2 & O3). rewrite Nat.add_0_r. split; [|split].
        -- intros k c Hk. rewrite O1 by (apply nth_error_Some; congruence). exact (New1 k c Hk).
        -- rewrite O2, nth_error_upd_same by lia. auto.
        -- intros v' wc Ev' Ewc. destruct w1 as [v1|]; [rewrite (O3 v1 v' eq_refl Ev'); apply Wi; auto|]. destruct N1 as [N1 _]. rewrite N1 in Ewc by auto. discriminate.
      * replace (i + S p) with (S i + p) by lia. apply New. exact Hp.
    + intros p Hp. destruct (Old p ltac:(lia)) as (O1 & O2 & O3). split; [|split].
      * intros k Hk. rewrite O1 by auto. apply Old1. intros g Hg Heq. cbn [Nat.add] in Heq. assert (p < n /\ i < n) as [Hp1 Hi1] by lia. assert (k = g) by nia. subst. lia.
      * rewrite O2. apply nth_error_upd_other. lia.
      * intros v0 v' E0 E'. destruct w1 as [v1|]; [rewrite (O3 v1 v' eq_refl E'); apply (Wo p v0 v1); auto; lia|].
        destruct N1 as [N1 _]. rewrite N1 in Nw by auto. destruct Nw as [_ Nw]. rewrite Nw in E0 by auto. discriminate.
Qed.
End Store.

(** ** C45 *)

(** A usable table is accepted, an unusable one refused (never a panic); the dataset has the table's rows in order, the chosen target column, the
    chosen feature columns in increasing order, the chosen weights, and (when the header has the table's width) their headings as names. *)
Theorem C45_columns : forall (T N : Type) (F : FloatOps T) of_nat (default_name : nat -> N) has_headers headers (rows : list (list T)) c,
  (forall n y, ~ usable rows c n y) /\ build_full_dataset F of_nat default_name has_headers headers rows c = Ok None
  \/ exists n y xs d names w, usable rows c n y /\ features_of c n y xs
    /\ build_full_dataset F of_nat default_name has_headers headers rows c = Ok (Some (d, names, w))
    /\ columns_of rows y xs d /\ ds_weights d = None
    /\ match cl_w c with
       | None => w = None
       | Some wc => exists v, w = Some v /\ List.length v = List.length rows /\ forall i, i < List.length rows -> nth_error v i = cell rows i wc
       end
    /\ List.length names = List.length xs
    /\ (has_headers = true -> List.length headers = n -> forall j col, nth_error xs j = Some col -> nth_error names j = nth_error headers col).
Proof.
  intros T N F of_nat dn hh headers rows c. unfold build_full_dataset. pose proof (checked_spec rows c) as H. destruct (checked_columns rows c) as [[[y w] xs]|]; [right|left; auto].
  destruct H as (n & U & -> & Hf & Hn & Hne & Hall). exists n, y, xs. cbv zeta.
  destruct (store_rows_spec xs y (cl_w c) (List.length rows) n ltac:(intros i Hi; apply Hall in Hi; tauto) (proj2 (us_y _ _ _ _ U)) ltac:(intros wc Hw; apply (us_w _ _ _ _ U) in Hw; tauto)
    rows 0 (fill (List.length xs * List.length rows) (fzero F)) (fill (List.length rows) (fzero F)) (match cl_w c with Some _ => Some (fill (List.length rows) (fzero F)) | None => None end))
    as (x' & y' & w' & E & Lx & Ly & Nw & Lw & New & _).
  - apply (us_rect _ _ _ _ U).
  - reflexivity.
  - apply fill_length.
  - apply fill_length.
  - destruct (cl_w c); split; congruence.
  - intros v Hv. destruct (cl_w c); [injection Hv as <-; apply fill_length|discriminate].
  - rewrite E. cbn [bind].
    assert (Hnames : exists names, (if hh && (List.length headers =? match rows with [] => 0 | r :: _ => List.length r end) then mapM (index headers) xs else Ok (map dn (seq 0 (List.length xs)))) = Ok names
              /\ List.length names = List.length xs
              /\ (hh = true -> List.length headers = n -> forall j col, nth_error xs j = Some col -> nth_error names j = nth_error headers col)).
    { rewrite Hn. destruct hh; cbn [andb].
      - destruct (Nat.eqb_spec (List.length headers) n) as [El|El].
        + assert (Hm : exists names, mapM (index headers) xs = Ok names /\ List.length names = List.length xs
                   /\ forall j col, nth_error xs j = Some col -> nth_error names j = nth_error headers col).
          { assert (Hb : forall i, In i xs -> i < List.length headers) by (intros i Hi; rewrite El; apply Hall; auto). clear - Hb. induction xs as [|x xs IH].
            - exists []. cbn. repeat split; auto. intros [|j] col H; discriminate.
            - destruct IH as (ns & E1 & E2 & E3); [intros i Hi; apply Hb; right; auto|]. cbn [mapM]. unfold index at 1.
              destruct (nth_error headers x) as [h|] eqn:Eh; [|apply nth_error_None in Eh; specialize (Hb x (or_introl eq_refl)); lia]. cbn [expect bind]. rewrite E1. cbn [bind].
              exists (h :: ns). cbn. split; auto. split; auto. intros [|j] col Hj; cbn in *; [injection Hj as <-; auto|auto]. }
          destruct Hm as (names & M1 & M2 & M3). exists names. auto.
        + eexists. split; [reflexivity|]. rewrite map_length, seq_length. split; auto. congruence.
      - eexists. split; [reflexivity|]. rewrite map_length, seq_length. split; auto. discriminate. }
    destruct Hnames as (names & En & Ln & Hnm). rewrite En. cbn [bind].
    destruct (build_ok F of_nat (mkMat x' (List.length xs) (List.length rows)) y' None) as (a & Eb & Hok); [exact Lx|exact Ly|discriminate|].
    rewrite Eb. cbn [bind]. do 3 eexists. split; [exact U|]. split; [exact Hf|]. split; [reflexivity|]. split; [|split; [reflexivity|split; [|split; [exact Ln|exact Hnm]]]].
    + split; [reflexivity|]. split; [reflexivity|]. split; [exact Hok|]. split.
      * intros i Hi. unfold cell, target. cbn. destruct (nth_error rows i) as [r|] eqn:Er; [|apply nth_error_None in Er; lia]. destruct (New i r Er) as (_ & N2 & _). exact N2.
      * intros i j col Hi Hj. unfold cell, feature. cbn. destruct (nth_error rows i) as [r|] eqn:Er; [|apply nth_error_None in Er; lia]. destruct (New i r Er) as (N1 & _). apply N1. exact Hj.
    + destruct (cl_w c) as [wc|]; [|apply Nw; auto]. destruct w' as [v|]; [|destruct Nw as [Nw _]; discriminate Nw; auto]. exists v. split; auto. split; [apply Lw; auto|].
      intros i Hi. unfold cell. destruct (nth_error rows i) as [r|] eqn:Er; [|apply nth_error_None in Er; lia]. destruct (New i r Er) as (_ & _ & N3). apply N3; auto.
Qed.

(** Non-vacuity: a 4x4 table, target column 1, weight column 3, the columns 2 and 0 asked for (with a repetition); then a split of its rows. *)
Definition csv_rows : list (list Z) := [[1; 2; 3; 4]; [5; 6; 7; 8]; [9; 10; 11; 12]; [13; 14; 15; 16]]%Z.
Example C45_case : exists d w, build_full_dataset zops Z.of_nat (fun i => i) true [100; 101; 102; 103] csv_rows (mkColumns (Some [2; 0; 2]) (Some 1) (Some 3))
    = Ok (Some (d, [100; 102], Some w))
  /\ m_data (ds_x d) = [1; 5; 9; 13; 3; 7; 11; 15]%Z /\ ds_y d = [2; 6; 10; 14]%Z /\ w = [4; 8; 12; 16]%Z
  /\ usable csv_rows (mkColumns (Some [2; 0; 2]) (Some 1) (Some 3)) 4 1.
Proof.
  do 2 eexists. split; [vm_compute; reflexivity|]. split; [reflexivity|]. split; [reflexivity|]. split; [reflexivity|].
  constructor; cbn; try discriminate; try lia; auto.
  - intros r [<-|[<-|[<-|[<-|[]]]]]; reflexivity.
  - intros w [= <-]. lia.
  - intros v [= <-]. split; [discriminate|]. intros i [<-|[<-|[<-|[]]]]; repeat split; try lia; discriminate.
Qed.
Example C45_refused : build_full_dataset zops Z.of_nat (fun i => i) true [] csv_rows (mkColumns (Some [2; 4]) (Some 1) (Some 3)) = Ok None.
Proof. reflexivity. Qed.
Example C41_case : exists d w a b, build_full_dataset zops Z.of_nat (fun i => i) true [] csv_rows (mkColumns (Some [2; 0; 2]) (Some 1) (Some 3)) = Ok (Some (d, [0; 1], w))
  /\ make_split_indices 4 (rounded_q (1 # 2)) (mkRng (fun k => 5 + k) (fun _ => 0%Z)) = Ok ([2; 3], [0; 1])
  /\ split_train_val zops Z.of_nat d w ([2; 3], [0; 1]) = Ok (Some (a, Some b))
  /\ ds_y a = [2; 6]%Z /\ ds_y b = [10; 14]%Z /\ m_data (ds_x b) = [9; 13; 11; 15]%Z /\ ds_weights b = Some [12; 16]%Z.
Proof. do 4 eexists. split; [vm_compute; reflexivity|]. split; [vm_compute; reflexivity|]. split; [vm_compute; reflexivity|]. repeat split; reflexivity. Qed.

Print Assumptions C41_partition.
Print Assumptions C41_faithful.
Print Assumptions C41_out_of_range.
Print Assumptions C41_proportions.
Print Assumptions C41_training_may_be_empty_refuted.
Print Assumptions C45_columns.
