(** Property C35: mini-batches are made of rows of the full dataset. *)
From Verif Require Import Base BaseLemmas Node Compile Eval EvalProofs EvalTop Rng Dataset Instances.

(** Shape of a dataset: one target (and weight) per row, one column of data per row. *)
Definition dataset_ok {T} (d : dataset T) : Prop :=
  m_nrows (ds_x d) = ds_n_features d /\ m_ncols (ds_x d) = ds_n_rows d /\ mat_ok (ds_x d)
  /\ List.length (ds_y d) = ds_n_rows d
  /\ forall w, ds_weights d = Some w -> List.length w = ds_n_rows d.

(** Feature [f] of row [i]. *)
Definition feature {T} (d : dataset T) (i f : nat) : option T := nth_error (m_data (ds_x d)) (f * ds_n_rows d + i).
Definition target {T} (d : dataset T) (i : nat) : option T := nth_error (ds_y d) i.
Definition weight {T} (d : dataset T) (i : nat) : option T :=
  match ds_weights d with Some w => nth_error w i | None => None end.

(** Row [i] of [a] and row [j] of [b] have the same features, target and weight. *)
Definition same_row {T} (a : dataset T) (i : nat) (b : dataset T) (j : nat) : Prop :=
  (forall f, f < ds_n_features b -> feature a i f = feature b j f) /\ target a i = target b j /\ weight a i = weight b j.

Definition weighted {T} (d : dataset T) : Prop := ds_weights d <> None.

Section C35.
Context {T W : Type}.

Lemma assign_column_spec (srcd : list T) scols scol dcols dcol : scol < scols -> dcol < dcols ->
  forall k f dst, (f + k) * scols <= List.length srcd -> (f + k) * dcols <= List.length dst ->
  exists dst', assign_column k f dst dcols dcol srcd scols scol = Ok dst'
    /\ List.length dst' = List.length dst
    /\ (forall g, f <= g < f + k -> nth_error dst' (g * dcols + dcol) = nth_error srcd (g * scols + scol))
    /\ (forall p, (forall g, f <= g < f + k -> p <> g * dcols + dcol) -> nth_error dst' p = nth_error dst p).
Proof.
  intros Hs Hd. induction k as [|k IH]; intros f dst Hls Hld.
  - exists dst. cbn. repeat split; auto. intros g Hg; lia.
  - cbn [assign_column]. unfold index.
    destruct (nth_error srcd (f * scols + scol)) as [v|] eqn:Ev; [|apply nth_error_None in Ev; nia].
    cbn [expect bind]. unfold set_index. destruct (Nat.ltb_spec (f * dcols + dcol) (List.length dst)) as [Hlt|Hge]; [|nia].
    cbn [bind]. destruct (IH (S f) (upd dst (f * dcols + dcol) v)) as (dst' & E & Hl & Hin & Hout).
    { replace (S f + k) with (f + S k) by lia. auto. }
    { rewrite upd_length. replace (S f + k) with (f + S k) by lia. auto. }
    exists dst'. split; auto. rewrite upd_length in Hl. split; auto. split.
    + intros g Hg. destruct (Nat.eq_dec g f) as [->|Hne].
      * rewrite Hout by (intros g' Hg' Heq; nia). rewrite nth_error_upd_same by auto. auto.
      * apply Hin. lia.
    + intros p Hp. rewrite Hout by (intros g Hg; apply Hp; lia). apply nth_error_upd_other. intros Heq. apply (Hp f); lia.
Qed.

(** Buffer and full dataset fit together, and the full one has rows. *)
Definition fit (b full : dataset T) : Prop :=
  dataset_ok b /\ dataset_ok full /\ ds_n_features b = ds_n_features full /\ (weighted b <-> weighted full)
  /\ 1 <= ds_n_rows full.

Lemma resample_loop_spec (full : dataset T) : forall k i (b : dataset T) (r : rng W), fit b full -> i + k = ds_n_rows b ->
  exists b' r' js, resample_loop k i b full r = Ok (b', r')
    /\ fit b' full /\ ds_n_rows b' = ds_n_rows b /\ ds_avg_y b' = ds_avg_y b
    /\ List.length js = k /\ (forall p j, nth_error js p = Some j -> j < ds_n_rows full /\ j = rg_nat r p mod ds_n_rows full)
    /\ (forall p j, nth_error js p = Some j -> same_row b' (i + p) full j)
    /\ (forall p, p < i -> same_row b' p b p).
Proof.
  induction k as [|k IH]; intros i b r Hfit Hik.
  - exists b, r, []. cbn. split; auto. split; auto. split; auto. split; auto. split; auto.
    split; [intros [|p] j H; discriminate|]. split; [intros [|p] j H; discriminate|].
    intros p Hp. repeat split.
  - cbn [resample_loop]. destruct Hfit as (Hb & Hf & Hnf & Hw & Hn).
    destruct Hb as (B1 & B2 & B3 & B4 & B5). destruct Hf as (F1 & F2 & F3 & F4 & F5).
    destruct (usize_range_ok r 0 (ds_n_rows full) ltac:(lia)) as (src & r1 & Er & Hsrc).
    assert (Esrc : src = rg_nat r 0 mod ds_n_rows full /\ r1 = mkRng (shift (rg_nat r)) (rg_real r)).
    { unfold usize_range in Er. destruct (Nat.ltb_spec 0 (ds_n_rows full)); [|lia]. rewrite Nat.sub_0_r, Nat.add_0_l in Er. injection Er as <- <-. auto. }
    rewrite Er. cbn [bind]. unfold mat_ok in B3, F3. rewrite B1, B2 in B3. rewrite F1, F2 in F3.
    rewrite B2, F2.
    destruct (assign_column_spec (m_data (ds_x full)) (ds_n_rows full) src (ds_n_rows b) i ltac:(lia) ltac:(lia) (ds_n_features b) 0 (m_data (ds_x b)))
      as (x' & Ex & Hxl & Hxin & Hxout); [rewrite F3, Hnf; cbn; lia|rewrite B3; cbn; lia|].
    rewrite Ex. cbn [bind]. unfold index.
    destruct (nth_error (ds_y full) src) as [yv|] eqn:Ey; [|apply nth_error_None in Ey; lia].
    cbn [expect bind]. unfold set_index. destruct (Nat.ltb_spec i (List.length (ds_y b))) as [_|?]; [|lia]. cbn [bind].
    assert (Hwx : exists w', (match ds_weights b, ds_weights full with
                | Some d, Some s => let! v := expect (nth_error s src) in
                    let! d := (if i <? List.length d then Ok (upd d i v) else Panic) in Ok (Some d)
                | _, _ => Ok (ds_weights b) end) = Ok w'
              /\ (w' = None <-> ds_weights full = None)
              /\ (forall w, w' = Some w -> List.length w = ds_n_rows b)
              /\ (match w' with Some w => nth_error w i | None => None end) = weight full src
              /\ (forall p, p <> i -> (match w' with Some w => nth_error w p | None => None end) = weight b p)).
    { unfold weight. unfold weighted in Hw. destruct (ds_weights b) as [d|] eqn:Eb, (ds_weights full) as [s|] eqn:Ef.
      - specialize (F5 s eq_refl). specialize (B5 d eq_refl).
        destruct (nth_error s src) as [v|] eqn:Ev; [|apply nth_error_None in Ev; lia]. cbn [expect bind].
        destruct (Nat.ltb_spec i (List.length d)); [|lia]. cbn [bind]. eexists. split; [reflexivity|].
        split; [split; discriminate|]. split; [intros w [= <-]; rewrite upd_length; auto|].
        split; [apply nth_error_upd_same; lia|]. intros p Hp. apply nth_error_upd_other; auto.
      - exfalso. assert (Hx : Some d <> None) by discriminate. apply Hw in Hx. congruence.
      - exfalso. assert (Hx : Some s <> None) by discriminate. apply Hw in Hx. congruence.
      - exists None. repeat split; auto; try discriminate. }
    destruct Hwx as (w' & Ew & Hwn & Hwl & Hwi & Hwo). fold (@set_index T) in *. unfold index in *. rewrite Ew. cbn [bind].
    set (b1 := mkData (mkMat x' (m_nrows (ds_x b)) (ds_n_rows b)) (upd (ds_y b) i yv) (ds_n_features b) (ds_n_rows b) w' (ds_avg_y b)).
    assert (Hfit1 : fit b1 full).
    { split; [|split; [|split; [|split]]].
      - unfold dataset_ok, b1. cbn. unfold mat_ok. cbn. rewrite B1, Hxl, B3, upd_length. repeat split; auto.
      - unfold dataset_ok, mat_ok. rewrite F1, F2, F3. repeat split; auto.
      - exact Hnf.
      - unfold weighted, b1. cbn. rewrite Hwn. tauto.
      - exact Hn. }
    destruct (IH (S i) b1 r1 Hfit1) as (b' & r' & js & E & Hfit' & Hnr & Ha & Hl & Hj & Hrow & Hold); [cbn; lia|].
    exists b', r', (src :: js). cbn [List.length]. split; [exact E|]. split; auto. split; [exact Hnr|]. split; [exact Ha|]. split; auto.
    assert (Hrow1 : same_row b1 i full src).
    { split; [|split].
      - intros f Hf. unfold feature, b1. cbn [ds_x m_data ds_n_rows]. apply Hxin. cbn. lia.
      - unfold target, b1. cbn [ds_y]. rewrite nth_error_upd_same by lia. auto.
      - unfold weight at 1, b1. cbn [ds_weights]. exact Hwi. }
    assert (Hrow0 : forall p, p < i -> same_row b1 p b p).
    { intros p Hp. split; [|split].
      - intros f Hf. unfold feature, b1. cbn [ds_x m_data ds_n_rows]. apply Hxout. intros g Hg Heq.
        assert (f * ds_n_rows b + p = g * ds_n_rows b + i) by lia.
        destruct (Nat.lt_total f g) as [?|[?|?]]; nia.
      - unfold target, b1. cbn [ds_y]. apply nth_error_upd_other. lia.
      - unfold weight at 1, b1. cbn [ds_weights]. apply Hwo. lia. }
    assert (Htr : forall a x bb y c z, same_row a x bb y -> same_row bb y c z -> ds_n_features bb = ds_n_features c -> @same_row T a x c z).
    { intros a x bb y c z (H1 & H2 & H3) (H4 & H5 & H6) Hn'. split; [|split]; [|congruence|congruence].
      intros f Hf. rewrite H1 by (rewrite Hn'; auto). apply H4; auto. }
    split; [|split].
    + intros [|p] j H; [injection H as <-; destruct Esrc as [-> _]; split; auto; apply Nat.mod_upper_bound; lia|].
      destruct (Hj p j H) as [H1 H2]. split; auto. rewrite H2. destruct Esrc as [_ ->]. reflexivity.
    + intros [|p] j H.
      * injection H as <-. rewrite Nat.add_0_r. apply (Htr _ _ b1 i); auto.
      * replace (i + S p) with (S i + p) by lia. apply Hrow; auto.
    + intros p Hp. apply (Htr _ _ b1 p); auto.
Qed.

End C35.

(** Every batch row is a copy of one row of the full dataset, the one drawn for it; sizes do not change. The full
    dataset is an input that is not returned: it cannot change. *)
Theorem C35_resample_rows : forall (T W : Type) (b full : dataset T) (r : rng W), fit b full ->
  exists b' r' rows, resample_from b full r = Ok (b', r')
    /\ dataset_ok b' /\ ds_n_rows b' = ds_n_rows b /\ ds_n_features b' = ds_n_features full /\ (weighted b' <-> weighted full)
    /\ List.length rows = ds_n_rows b
    /\ forall i j, nth_error rows i = Some j -> j < ds_n_rows full /\ same_row b' i full j.
Proof.
  intros T W b full r Hfit. pose proof Hfit as (Hb & Hf & Hnf & Hw & Hn).
  destruct Hb as (B1 & B2 & B3 & B4 & B5).
  unfold resample_from. destruct (Nat.eqb_spec (ds_n_rows full) 0); [lia|].
  rewrite Hnf, B1, Hnf, B2, B4, !Nat.eqb_refl. cbn [assert_ bind].
  assert (Ew : (match ds_weights b with
     | Some w => let! _ := assert_ (List.length w =? ds_n_rows b) in assert_ (match ds_weights full with Some _ => true | None => false end)
     | None => assert_ (match ds_weights full with Some _ => false | None => true end) end) = Ok tt).
  { unfold weighted in Hw. destruct (ds_weights b) as [d|] eqn:Eb, (ds_weights full) as [s|] eqn:Ef; auto.
    - rewrite (B5 d eq_refl), Nat.eqb_refl. reflexivity.
    - exfalso. assert (Hx : Some d <> None) by discriminate. apply Hw in Hx. congruence.
    - exfalso. assert (Hx : Some s <> None) by discriminate. apply Hw in Hx. congruence. }
  rewrite Ew. cbn [bind].
  destruct (resample_loop_spec full (ds_n_rows b) 0 b r Hfit eq_refl) as (b' & r' & js & E & (Hb' & _ & Hnf' & Hw' & _) & Hnr & _ & Hl & Hj & Hrow & _).
  exists b', r', js. split; auto. split; auto. split; auto. split; auto. split; auto. split; auto.
  intros i j H. split; [apply (Hj i j H)|]. apply (Hrow i j H).
Qed.

(** Sampling is with replacement and every choice of rows can be drawn. *)
Theorem C35_any_rows : forall (T W : Type) (b full : dataset T) (r0 : rng W) rows, fit b full ->
  List.length rows = ds_n_rows b -> Forall (fun j => j < ds_n_rows full) rows ->
  exists (r : rng W) b' r', resample_from b full r = Ok (b', r') /\ forall i j, nth_error rows i = Some j -> same_row b' i full j.
Proof.
  intros T W b full r0 rows Hfit Hlen Hall. set (r := mkRng (fun i => nth i rows 0) (rg_real r0)). exists r.
  pose proof Hfit as (Hb & Hf & Hnf & Hw & Hn).
  destruct Hb as (B1 & B2 & B3 & B4 & B5).
  unfold resample_from. destruct (Nat.eqb_spec (ds_n_rows full) 0); [lia|].
  rewrite Hnf, B1, Hnf, B2, B4, !Nat.eqb_refl. cbn [assert_ bind].
  assert (Ew : (match ds_weights b with
     | Some w => let! _ := assert_ (List.length w =? ds_n_rows b) in assert_ (match ds_weights full with Some _ => true | None => false end)
     | None => assert_ (match ds_weights full with Some _ => false | None => true end) end) = Ok tt).
  { unfold weighted in Hw. destruct (ds_weights b) as [d|] eqn:Eb, (ds_weights full) as [s|] eqn:Ef; auto.
    - rewrite (B5 d eq_refl), Nat.eqb_refl. reflexivity.
    - exfalso. assert (Hx : Some d <> None) by discriminate. apply Hw in Hx. congruence.
    - exfalso. assert (Hx : Some s <> None) by discriminate. apply Hw in Hx. congruence. }
  rewrite Ew. cbn [bind].
  destruct (resample_loop_spec full (ds_n_rows b) 0 b r Hfit eq_refl) as (b' & r' & js & E & (Hb' & _ & Hnf' & Hw' & _) & Hnr & _ & Hl & Hj & Hrow & _).
  exists b', r'. split; auto. intros i j H. apply (Hrow i j).
  assert (Hi : i < List.length js) by (rewrite Hl, <- Hlen; apply nth_error_Some; congruence).
  destruct (nth_error js i) as [j'|] eqn:Ej; [|apply nth_error_None in Ej; lia].
  destruct (Hj i j' Ej) as [_ ->]. f_equal. unfold r. cbn [rg_nat]. rewrite (nth_error_nth _ _ _ H).
  apply Nat.mod_small. rewrite Forall_forall in Hall. apply Hall. eapply nth_error_In; eauto.
Qed.

(** The buffer made for a dataset fits it, whatever batch size is asked for. *)
Theorem C35_buffer_fits : forall (T : Type) (F : FloatOps T) of_nat (full : dataset T) batch_size,
  dataset_ok full -> 1 <= ds_n_rows full ->
  exists b, make_batch_buffer F of_nat full batch_size = Ok b /\ fit b full /\ ds_n_rows b = Nat.max batch_size 1
    /\ ds_avg_y b = ds_avg_y full.
Proof.
  intros T F of_nat full bs Hok Hn. unfold make_batch_buffer. destruct (Nat.eqb_spec (ds_n_rows full) 0); [lia|].
  unfold build_dataset. cbn [m_ncols zeros]. rewrite fill_length, Nat.eqb_refl. cbn [assert_ bind].
  assert (Hfit : forall w' : option (list T), (w' = None <-> ds_weights full = None) ->
    (forall w, w' = Some w -> List.length w = Nat.max bs 1) ->
    fit (mkData (zeros F (ds_n_features full) (Nat.max bs 1)) (fill (Nat.max bs 1) (fzero F)) (ds_n_features full) (Nat.max bs 1) w' (ds_avg_y full)) full).
  { intros w' Hw Hl. split; [|split; [|split; [|split]]]; auto.
    - split; [|split; [|split; [|split]]]; cbn; auto; [unfold mat_ok; cbn|]; apply fill_length.
    - unfold weighted. cbn. rewrite Hw. tauto. }
  destruct (ds_weights full) as [w|] eqn:Ew.
  - rewrite fill_length, Nat.eqb_refl. cbn [assert_ bind]. eexists. split; [reflexivity|]. split; [|cbn; auto].
    apply Hfit; [split; discriminate|]. intros w' [= <-]. apply fill_length.
  - cbn [bind]. eexists. split; [reflexivity|]. split; [|cbn; auto]. apply Hfit; [tauto|discriminate].
Qed.

(** Two features, three weighted rows, a batch of two. *)
Definition demo_full : dataset Z := mkData (mkMat [1; 2; 3; 10; 20; 30]%Z 2 3) [100; 200; 300]%Z 2 3 (Some [7; 8; 9]%Z) 0%Z.
Definition demo_buf : dataset Z := mkData (mkMat [0; 0; 0; 0]%Z 2 2) [0; 0]%Z 2 2 (Some [0; 0]%Z) 0%Z.
Example C35_case : fit demo_buf demo_full
  /\ make_batch_buffer zops Z.of_nat demo_full 2 = Ok demo_buf
  /\ exists r, resample_from demo_buf demo_full (mkRng (fun n => n + 1) (fun _ => 0%Z))
     = Ok (mkData (mkMat [2; 3; 20; 30]%Z 2 2) [200; 300]%Z 2 2 (Some [8; 9]%Z) 0%Z, r).
Proof.
  split; [|split; [reflexivity|eexists; vm_compute; reflexivity]].
  unfold fit, dataset_ok, mat_ok, weighted. cbn. repeat split; auto; try congruence; try lia; intros w [= <-]; reflexivity.
Qed.
