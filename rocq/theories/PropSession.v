(** Property C66: a session of the web front end. What the constructor accepts and builds from a table, and what every later call returns. *)
From Coq Require Import QArith String Ascii Permutation DecimalNat DecimalString Decimal.
From Verif Require Import Base BaseLemmas Node Tree NodeProofs Compile Eval EvalProofs EvalTop Utils Simplify Rng Registry PropRegistry Complexity Member SortProofs PropHof Selection Conditioning Dataset PropDataset
  Loss PropLoss Optim ConstOpt Evolution PropEvolution Search PropSearch PropWhole PropPanic PropLive Num Instances PropConstOpt Metrics PropMetrics Wasm PropWasm Strings PropStrings Session.
From Coq Require Import List Lia Arith.
Import ListNotations.
Local Open Scope list_scope.
Local Open Scope nat_scope.

(** ** Specification *)

(** The names of the losses, with the parameters given in the options. *)
Definition loss_names {T} (o : loss_opts T) : list (string * loss_kind T) :=
  [("mse"%string, LMse); ("mae"%string, LMae); ("rmse"%string, LRmse); ("huber"%string, LHuber (lp_huber o)); ("logcosh"%string, LLogCosh); ("lp"%string, LLp (lp_p o));
   ("quantile"%string, LQuantile (lp_tau o)); ("epsilon-insensitive"%string, LEps (lp_eps o)); ("epsilon_insensitive"%string, LEps (lp_eps o));
   ("eps-insensitive"%string, LEps (lp_eps o)); ("eps_insensitive"%string, LEps (lp_eps o))].
(** The loss asked for, in any case of letters and with blanks around it. *)
Definition asks_loss {T} (o : loss_opts T) (k : loss_kind T) : Prop :=
  exists t name, stripped (lp_kind o) t /\ lower_string t = name /\ In (name, k) (loss_names o).

(** The operators asked for: each token names exactly one operator of its arity, and no operator is asked for twice. *)
Definition tokens {T} (o : web_opts T) : list (nat * string) := map (pair 1) (wo_unary o) ++ map (pair 2) (wo_binary o) ++ map (pair 3) (wo_ternary o).
Definition asks_ops {T} (tb : optable) (o : web_opts T) (ops : list opid) : Prop :=
  tokens o <> [] /\ Forall2 (fun p op => fst op = fst p /\ lookup_with_arity tb (snd p) (fst p) = inl op) (tokens o) ops /\ NoDup ops.

(** [d] holds the rows [idx] of the table, in that order: target column [y], weight column [w], feature columns [xs]. *)
Definition table_data {T} (rows : list (list T)) (y : nat) (w : option nat) (xs : list nat) (idx : list nat) (d : dataset T) : Prop :=
  dataset_ok d /\ ds_n_rows d = List.length idx /\ ds_n_features d = List.length xs /\ (ds_weights d = None <-> w = None)
  /\ forall i r, nth_error idx i = Some r ->
       r < List.length rows /\ target d i = cell rows r y /\ (forall j c, nth_error xs j = Some c -> feature d i j = cell rows r c)
       /\ weight d i = match w with Some c => cell rows r c | None => None end.

(** The counts of the [step] calls, and the last [set_pareto_k] (at first 250). *)
Definition step_counts (rs : list request) : list nat := flat_map (fun r => match r with Step n => [n] | _ => [] end) rs.
Definition points_wanted (rs : list request) : nat := fold_left (fun k r => match r with SetK k' => k' | _ => k end) rs 250.

(** A decimal number. *)
Definition spells (s : text) (n : nat) : Prop :=
  s <> [] /\ Forall (fun c => 48 <= nat_of_ascii c <= 57) s /\ n = fold_left (fun a c => 10 * a + (nat_of_ascii c - 48)) s 0.
Definition numeral (limit : nat) (s : text) (n : nat) : Prop := n <= limit /\ exists ds, (s = ds \/ s = "+"%char :: ds) /\ spells ds n.

(** A point, a summary of a member. *)
Definition is_point {T} (m : member T) (p : point T) : Prop :=
  spells (pt_id p) (m_id m) /\ pt_complexity p = m_complexity m /\ pt_loss p = m_loss m /\ pt_cost p = m_cost m.
Definition is_summary {T} (tb : optable) (show : T -> text) (names : list text) (m : member T) (s : summary T) : Prop :=
  is_point m (su_point s) /\ string_tree tb show (Some names) false (m_expr m) = Ok (su_equation s).
(** The last [k] members of a front. *)
Definition last_part {A} (k : nat) (front kept : list A) : Prop := exists dropped, front = dropped ++ kept /\ List.length kept = Nat.min k (List.length front).

(** The data named [which]. *)
Definition data_named {T W} (s : session T W) (which : string) (d : dataset T) : Prop :=
  (which = "train"%string /\ d = en_data (se_engine s)) \/ (which = "val"%string /\ se_val s = Some d).

(** The reply to [r], after [before] and in the state [en] of the engine (once [r] has been carried out). *)
Definition proper {T W} (tb : optable) (show : T -> text) (limit : nat) (s0 : session T W) (before : list request) (en : @engine T) (r : request) (x : reply T) : Prop :=
  let S1 := se_cfg s0 in let C := eo_C (sc_E S1) in let total := sc_niterations S1 * sc_populations S1 in let front := pareto_front (ec_F C) (ss_hall (en_st en)) in
  match r with
  | SetK _ => x = Done
  | GetSplit => x = TheSplit (snd (se_split s0)) (fst (se_split s0))
  | IsFinished => exists b, x = Finished b /\ (b = true <-> total <= sum (step_counts before))
  | Step n => exists sn kept, x = Snap sn /\ sn_total sn = total /\ sn_completed sn = Nat.min (sum (step_counts before) + n) total /\ sn_evals sn = ss_evals (en_st en)
      /\ is_summary tb show (se_names s0) (ss_best (en_st en)) (sn_best sn) /\ last_part (points_wanted before) front kept /\ Forall2 is_point kept (sn_points sn)
  | BestEquations k => exists l kept, x = Equations l /\ last_part k front kept /\ Forall2 (is_summary tb show (se_names s0)) kept l
  | EvaluateMember id which =>
      ((forall i d m, ~ (numeral limit id i /\ data_named s0 which d /\ shown (en_st en) i m)) -> x = Refused)
      /\ forall i d m, numeral limit id i -> data_named s0 which d -> shown (en_st en) i m -> exists t, represents (m_expr m) t
         /\ (~ completes C d (m_expr m) t -> x = Refused)
         /\ (completes C d (m_expr m) t -> exists mt, x = Evaluated mt (predictions C d (m_expr m) t)
             /\ compute_metrics (ec_F C) (ec_LO C) (predictions C d (m_expr m) t) (ds_y d) (ds_weights d) = Ok mt)
  end.

(** ** Names and numbers *)
Theorem C66_loss_name : forall (T : Type) (o : loss_opts T) k, loss_kind_of o = Some k <-> asks_loss o k.
Proof.
  intros T o k. unfold loss_kind_of, asks_loss. change lowercase with lower_string. cbv zeta.
  assert (E : (exists t name, stripped (lp_kind o) t /\ lower_string t = name /\ In (name, k) (loss_names o)) <-> In (lower_string (trim (lp_kind o)), k) (loss_names o)).
  { split; [intros (t & name & H1 & <- & H2); apply stripped_trim in H1 as ->; exact H2|]. intros H. exists (trim (lp_kind o)), (lower_string (trim (lp_kind o))). split; [apply trim_stripped|auto]. }
  rewrite E. set (s := lower_string (trim (lp_kind o))). clearbody s. clear E. unfold loss_names. cbn [In].
  split.
  - repeat match goal with |- context [String.eqb s ?n] => destruct (String.eqb_spec s n) as [->|] end; cbn [orb]; try discriminate; intros [= <-]; tauto.
  - intros H. repeat (destruct H as [H|H]; [injection H as <- <-; reflexivity|]). destruct H.
Qed.
(** The library's own parser reads the same names, with its own parameters. *)
Theorem C66_loss_parse : forall (T : Type) (one two half tenth : T) s,
  loss_kind_parse one two half tenth s = loss_kind_of (mkLossOpts s one two half tenth).
Proof. reflexivity. Qed.

Lemma digit_spec c d : digit c = Some d <-> 48 <= nat_of_ascii c <= 57 /\ d = nat_of_ascii c - 48.
Proof.
  unfold digit. cbv zeta. destruct (Nat.leb_spec 48 (nat_of_ascii c)), (Nat.leb_spec (nat_of_ascii c) 57); cbn [andb]; split; try discriminate; intros X; try lia.
  - injection X as <-. lia.
  - f_equal. lia.
Qed.
Lemma fold_grows : forall s a, a <= fold_left (fun a c => 10 * a + (nat_of_ascii c - 48)) s a.
Proof. induction s as [|c s IH]; intros a; cbn [fold_left]; auto. etransitivity; [|apply IH]. lia. Qed.
Lemma parse_digits_spec limit : forall s acc n, acc <= limit -> parse_digits limit s acc = Some n <->
  n <= limit /\ Forall (fun c => 48 <= nat_of_ascii c <= 57) s /\ n = fold_left (fun a c => 10 * a + (nat_of_ascii c - 48)) s acc.
Proof.
  induction s as [|c s IH]; intros acc n Ha; cbn [parse_digits fold_left].
  - split; [intros [= <-]; auto|intros (_ & _ & ->); auto].
  - destruct (digit c) as [d|] eqn:Ed.
    + apply digit_spec in Ed as [H1 ->]. cbv zeta. replace (acc * 10 + (nat_of_ascii c - 48)) with (10 * acc + (nat_of_ascii c - 48)) by lia. set (v := 10 * acc + (nat_of_ascii c - 48)).
      destruct (Nat.ltb_spec limit v) as [Hl|Hl].
      * split; [discriminate|]. intros (H2 & _ & H3). pose proof (fold_grows s v). lia.
      * rewrite IH by auto. split; intros (H2 & H3 & H4); repeat split; auto. inversion H3; auto.
    + split; [discriminate|]. intros (_ & H & _). inversion H as [|? ? H1 _]; subst. assert (X : digit c = Some (nat_of_ascii c - 48)) by (apply digit_spec; auto). congruence.
Qed.
Theorem C66_number : forall limit s n, parse_u64 limit s = Some n <-> numeral limit s n.
Proof.
  intros limit s n. unfold parse_u64, numeral, spells. destruct s as [|c s].
  - split; [discriminate|]. intros (_ & ds & [<-|H] & H2 & _); congruence.
  - destruct (Ascii.eqb_spec c "+") as [->|Hc].
    + destruct s as [|c2 s].
      * split; [discriminate|]. intros (_ & ds & [<-|[= <-]] & H1 & H2 & _); [|congruence]. inversion H2 as [|? ? X _]; subst. cbn in X. lia.
      * rewrite parse_digits_spec by lia. split.
        -- intros (H1 & H2 & H3). split; auto. exists (c2 :: s). split; auto. split; [discriminate|auto].
        -- intros (H1 & ds & [<-|[= <-]] & _ & H2 & H3); auto. inversion H2 as [|? ? X _]; subst. cbn in X. lia.
    + rewrite parse_digits_spec by lia. split.
      * intros (H1 & H2 & H3). split; auto. exists (c :: s). split; auto. split; [discriminate|auto].
      * intros (H1 & ds & [<-|[= -> _]] & _ & H2 & H3); auto. congruence.
Qed.

(** Numbers print as they are read. *)
Lemma acc_digits : forall u a, Nat.of_uint_acc u a = fold_left (fun a c => 10 * a + (nat_of_ascii c - 48)) (text_of (NilEmpty.string_of_uint u)) a
  /\ Forall (fun c => 48 <= nat_of_ascii c <= 57) (text_of (NilEmpty.string_of_uint u)).
Proof.
  unfold text_of. induction u as [|u IH|u IH|u IH|u IH|u IH|u IH|u IH|u IH|u IH|u IH]; intros a; cbn [Nat.of_uint_acc NilEmpty.string_of_uint list_ascii_of_string fold_left]; [split; auto|..].
  all: match goal with |- context [Nat.of_uint_acc ?u0 ?b] => destruct (IH b) as [E1 E2]; rewrite E1; split; [f_equal; rewrite Nat.tail_mul_spec; cbn [nat_of_ascii]; match goal with |- context [nat_of_ascii ?c] => let v := eval vm_compute in (nat_of_ascii c) in change (nat_of_ascii c) with v end; lia|constructor; [cbn; lia|exact E2]] end.
Qed.
Theorem C66_decimal : forall n, spells (decimal n) n.
Proof.
  intros n. unfold spells, decimal, NilZero.string_of_uint. assert (E : Nat.of_uint (Nat.to_uint n) = n) by apply DecimalNat.Unsigned.of_to.
  unfold Nat.of_uint in E. destruct (acc_digits (Nat.to_uint n) 0) as [E1 E2]. destruct (Nat.to_uint n) as [|u|u|u|u|u|u|u|u|u|u] eqn:Eu.
  1:{ cbn in E. subst n. split; [discriminate|]. split; [constructor; cbn; auto; lia|reflexivity]. }
  all: split; [discriminate|]; split; [exact E2|]; rewrite <- E1; symmetry; exact E.
Qed.

(** ** The constructor *)
Lemma asks_ops_unique {T} tb (o : web_opts T) ops ops' : asks_ops tb o ops -> asks_ops tb o ops' -> ops = ops'.
Proof.
  intros (_ & H1 & _) (_ & H2 & _). revert ops' H2. induction H1 as [|p op ps ops [_ Hp] _ IH]; intros ops' H2; inversion H2 as [|? op' ? ops2 [_ Hp'] H2']; subst; auto. f_equal; [congruence|auto].
Qed.
Lemma forall2_split {A B} (R : A -> B -> Prop) l1 x l2 m : Forall2 R (l1 ++ x :: l2) m -> exists m1 y m2, m = m1 ++ y :: m2 /\ Forall2 R l1 m1 /\ R x y /\ Forall2 R l2 m2.
Proof.
  intros H. apply Forall2_app_inv_l in H as (m1 & m2 & H1 & H2 & ->). inversion H2 as [|? y ? m2' Hxy H3]; subst. exists m1, y, m2'. auto.
Qed.
Lemma forall2_in {A B} (R : A -> B -> Prop) l m x : Forall2 R l m -> In x l -> exists y, In y m /\ R x y.
Proof. induction 1 as [|a b l m Hab _ IH]; [intros []|]. intros [<-|H]; [exists b; split; [left|]; auto|]. destruct (IH H) as (y & ? & ?). exists y. split; [right|]; auto. Qed.

Lemma names_chosen {T} tb (o : web_opts T) : exists r, from_names_by_arity tb 3 (wo_unary o) (wo_binary o) (wo_ternary o) = Ok r
  /\ match r with inl reg => exists ops, asks_ops tb o ops /\ reg = registry_of 3 ops | inr _ => forall ops, ~ asks_ops tb o ops end.
Proof.
  destruct (C17_from_names_by_arity tb 3 (wo_unary o) (wo_binary o) (wo_ternary o)) as (r & E & H). exists r. split; auto. fold (tokens o) in H.
  destruct r as [reg|[e|tok x f|tok a D'|tok|]].
  - destruct H as (H1 & ops & H2 & H3 & _ & H4). exists ops. split; auto. split; auto.
  - intros ops (_ & H2 & _). destruct H as (a & tok & Hi & He). destruct (forall2_in _ _ _ _ H2 Hi) as (op & _ & _ & E2). cbn in E2. congruence.
  - contradiction.
  - intros ops _. destruct H as (-> & Hlt & Hi). unfold tokens in Hi. rewrite !in_app_iff, !in_map_iff in Hi. destruct Hi as [(? & [= <- _] & _)|[(? & [= <- _] & _)|(? & [= <- _] & _)]]; lia.
  - intros ops (_ & H2 & H3). destruct H as (l & r & a & tok' & op & El & Hi & L1 & L2). rewrite El in H2. apply forall2_split in H2 as (m1 & op1 & m2 & -> & F1 & [_ R1] & _).
    destruct (forall2_in _ _ _ _ F1 Hi) as (op2 & I2 & _ & R2). cbn in R1, R2. assert (op1 = op2) by congruence. subst op2. apply NoDup_remove_2 in H3. apply H3, in_app_iff. auto.
  - intros ops (H1 & _). auto.
Qed.

Lemma rows_table {T} (rows : list (list T)) y xs all w c idx d : columns_of rows y xs all ->
  match cl_w c with None => w = None | Some wc => exists v, w = Some v /\ List.length v = List.length rows /\ forall i, i < List.length rows -> nth_error v i = cell rows i wc end ->
  (forall j, In j idx -> j < List.length rows) -> rows_of d all w idx -> table_data rows y (cl_w c) xs idx d.
Proof.
  intros (A1 & A2 & A3 & A4 & A5) Hw Hidx (R1 & R2 & R3 & R4 & R5). split; auto. split; auto. split; [congruence|]. split.
  - rewrite R4. destruct (cl_w c) as [wc|]; [|tauto]. destruct Hw as (v & -> & _). split; discriminate.
  - intros i r Hi. assert (Hr : r < List.length rows) by (apply Hidx; eapply nth_error_In; eauto). destruct (R5 i r Hi) as (C1 & C2 & C3). split; auto. split; [rewrite C2; auto|]. split.
    + intros j col Hj. rewrite C1; [apply A5; auto|]. rewrite A2. apply nth_error_Some. congruence.
    + rewrite C3. destruct (cl_w c) as [wc|]; [|subst w; reflexivity]. destruct Hw as (v & -> & _ & H). apply H; auto.
Qed.

Section New.
Context {T W : Type} (tb : optable) (S0 : search_cfg T W) (o : web_opts T) (headers : list text) (rows : list (list T)).

(** The constructor reports an error exactly if the operators, the columns or the loss asked for make no sense; *)
Theorem C66_error : session_new tb S0 o headers rows = Ok None <->
  (forall ops, ~ asks_ops tb o ops) \/ (forall n y, ~ usable rows (wo_columns o) n y) \/ (forall k, ~ asks_loss (wo_loss o) k).
Proof.
  unfold session_new. cbv zeta. destruct (names_chosen tb o) as (r & -> & Hr). cbn [bind]. destruct r as [reg|e]; [|tauto]. destruct Hr as (ops & Hops & ->).
  destruct (C45_columns T text (ec_F (eo_C (sc_E S0))) (lo_of_nat (ec_LO (eo_C (sc_E S0)))) x_name (wo_has_headers o) headers rows (wo_columns o))
    as [(Hno & ->)|(n & y & xs & d & names & w & Hu & Hxs & -> & Hc & _ & Hw & _)]; [cbn [bind]; tauto|]. cbn [bind].
  destruct (C41_partition T (ds_n_rows d) (wo_rounded o) (wo_rng o)) as (val & train & -> & Hp & _). cbn [bind].
  assert (Hidx : forall j, In j (val ++ train) -> j < ds_n_rows d).
  { intros j Hj. apply (Permutation_in j (Permutation_sym Hp)) in Hj. apply in_seq in Hj. lia. }
  assert (Hlw : forall v, w = Some v -> List.length v = ds_n_rows d).
  { intros v ->. destruct Hc as (-> & _). destruct (cl_w (wo_columns o)); [destruct Hw as (v' & [= <-] & E & _); exact E|discriminate]. }
  destruct (C41_faithful T (ec_F (eo_C (sc_E S0))) (lo_of_nat (ec_LO (eo_C (sc_E S0)))) d w val train) as (a & b & -> & _); auto; [apply Hc|]. cbn [bind].
  destruct (loss_kind_of (wo_loss o)) as [k|] eqn:Ek.
  - split.
    + intros X. apply bind_ok in X as (en & _ & X). discriminate.
    + intros [H|[H|H]]; exfalso; [eapply H; eauto|eapply H; eauto|]. apply (H k), C66_loss_name, Ek.
  - split; auto. intros _. right. right. intros k Hk. apply C66_loss_name in Hk. congruence.
Qed.

(** otherwise the rows of the table are divided into training and validation rows; the search starts on the training rows with the operators and the loss asked for, and the
    other rows are kept for validation. It does start if the options are reasonable for these data (see C49). *)
Theorem C66_accepted : forall ops n y k, asks_ops tb o ops -> usable rows (wo_columns o) n y -> asks_loss (wo_loss o) k ->
  exists xs names val_rows train_rows train val, let S1 := with_choices S0 (registry_of 3 ops) k in
    features_of (wo_columns o) n y xs
    /\ List.length names = List.length xs
    /\ (forall j c, nth_error xs j = Some c -> nth_error names j = if wo_has_headers o && (List.length headers =? n) then nth_error headers c else Some (text_of "x" ++ decimal j))
    /\ Permutation (seq 0 (List.length rows)) (val_rows ++ train_rows)
    /\ List.length val_rows = Nat.min (wo_rounded o (List.length rows)) (List.length rows)
    /\ table_data rows y (cl_w (wo_columns o)) xs train_rows train
    /\ match val with None => val_rows = [] | Some v => val_rows <> [] /\ table_data rows y (cl_w (wo_columns o)) xs val_rows v end
    /\ session_new tb S0 o headers rows = (let! en := engine_new S1 train in Ok (Some (mkSession S1 en names val (val_rows, train_rows) 250)))
    /\ forall B, live S1 train B -> exists en, engine_new S1 train = Ok en /\ en_data en = train.
Proof.
  intros ops n y k Hops Hu Hk. unfold session_new. cbv zeta. destruct (names_chosen tb o) as (r & -> & Hr). cbn [bind]. destruct r as [reg|e]; [|exfalso; eapply Hr; eauto]. destruct Hr as (ops' & Hops' & ->).
  rewrite (asks_ops_unique tb o ops ops' Hops Hops').
  destruct (C45_columns T text (ec_F (eo_C (sc_E S0))) (lo_of_nat (ec_LO (eo_C (sc_E S0)))) x_name (wo_has_headers o) headers rows (wo_columns o))
    as [(Hno & _)|(n' & y' & xs & d & names & w & Hu' & Hxs & E & Hc & _ & Hw & Hn1 & Hn2)]; [exfalso; eapply Hno; eauto|]. rewrite E. cbn [bind].
  assert (En : n' = n).
  { destruct rows as [|r rs] eqn:Er; [destruct (us_rows _ _ _ _ Hu); auto|]. rewrite <- (us_rect _ _ _ _ Hu r), <- (us_rect _ _ _ _ Hu' r); auto; left; auto. }
  subst n'. assert (y' = y) by (destruct (us_y _ _ _ _ Hu), (us_y _ _ _ _ Hu'); congruence). subst y'.
  destruct (C41_partition T (ds_n_rows d) (wo_rounded o) (wo_rng o)) as (val & train & -> & Hp & Hl & _). cbn [bind].
  assert (Hidx : forall j, In j (val ++ train) -> j < ds_n_rows d).
  { intros j Hj. apply (Permutation_in j (Permutation_sym Hp)) in Hj. apply in_seq in Hj. lia. }
  assert (Hnr : ds_n_rows d = List.length rows) by apply Hc.
  assert (Hlw : forall v, w = Some v -> List.length v = ds_n_rows d).
  { intros v ->. rewrite Hnr. destruct (cl_w (wo_columns o)); [destruct Hw as (v' & [= <-] & E1 & _); exact E1|discriminate]. }
  destruct (C41_faithful T (ec_F (eo_C (sc_E S0))) (lo_of_nat (ec_LO (eo_C (sc_E S0)))) d w val train) as (a & b & -> & Ha & Hb); auto; [apply Hc|]. cbn [bind].
  pose proof Hk as Hk'. apply C66_loss_name in Hk' as ->. rewrite Hnr in *.
  exists xs, names, val, train, a, b. split; auto. split; auto. split.
  { intros j c Hj. destruct (wo_has_headers o && (List.length headers =? n)) eqn:Eh.
    - apply andb_true_iff in Eh as [E1 E2]. apply Nat.eqb_eq in E2. apply Hn2; auto.
    - clear - E Hj Eh Hu Hn1. unfold build_full_dataset in E. destruct (checked_columns rows (wo_columns o)) as [[[yc wc] cols]|]; [|discriminate]. cbv zeta in E.
      apply bind_ok in E as ([[x0 y0] w0] & _ & E). apply bind_ok in E as (nm & Enm & E). apply bind_ok in E as (d0 & _ & E). injection E as _ -> _.
      assert (Ew : (match rows with [] => 0 | r :: _ => List.length r end) = n).
      { destruct rows as [|r rs] eqn:Er; [destruct (us_rows _ _ _ _ Hu); auto|]. apply (us_rect _ _ _ _ Hu r). left; auto. }
      rewrite Ew, Eh in Enm. injection Enm as <-. rewrite map_length, seq_length in Hn1. rewrite nth_error_map, (nth_error_nth' _ 0), seq_nth; [reflexivity|..]; rewrite ?seq_length, Hn1; apply nth_error_Some; congruence. }
  split; auto. split; auto. split; [eapply rows_table; eauto; intros j Hj; apply Hidx, in_app_iff; auto|]. split.
  { destruct b as [b|]; auto. destruct Hb as [Hb1 Hb2]. split; auto. eapply rows_table; eauto. intros j Hj. apply Hidx, in_app_iff; auto. }
  split; [reflexivity|]. intros B HL. destruct (C49_engine T W _ a B HL) as (en & He & _). exists en. split; auto. apply engine_new_ok in He as (_ & He & _). exact He.
Qed.
End New.

(** ** The calls *)
(** Printing never panics on a proper expression, whatever the names. *)
Lemma string_total {T} tb (show : T -> text) names pretty D nf known e t : nodes e = flatten t -> tree_ok D nf (List.length (consts e)) known t ->
  exists s, string_tree tb show names pretty e = Ok s.
Proof.
  intros En Hg. unfold string_tree, tree_mapreduce, tree_mapreduce_with_stack. rewrite En, tree_mapreduce_impl_flatten. cbn [bind].
  match goal with |- context [tree_fold ?a ?b ?c t] => set (fl := a); set (fb := b); set (op := c) end.
  assert (Hf : forall t, tree_ok D nf (List.length (consts e)) known t -> exists s, tree_fold fl fb op t = Ok s).
  { clear En Hg t. induction t as [f|i|o ch IH] using tree_ind'; cbn [tree_ok tree_fold]; intros H.
    - eexists. reflexivity.
    - unfold fl, index. destruct (nth_error (consts e) i) as [c|] eqn:Ec; [eexists; reflexivity|]. apply nth_error_None in Ec. lia.
    - destruct H as (Ha & Hk & Hch). apply fold_and_map in Hch. cbn [fb]. unfold op at 1.
      assert (Hs : exists l, sequence (map (tree_fold fl fb op) ch) = Ok l /\ List.length l = List.length ch).
      { clear - IH Hch. induction Hch as [|t l Ht _ IH2]; [exists []; auto|]. inversion IH as [|? ? I1 I2]; subst. destruct (I1 Ht) as (s & Es). destruct (IH2 I2) as (l' & El & Ll).
        exists (s :: l'). cbn [map sequence]. rewrite Es, El. cbn. split; [reflexivity|congruence]. }
      destruct Hs as (l & -> & Hl). cbn [bind fst]. rewrite Hl, Nat.eqb_refl. cbn. eexists. reflexivity. }
  destruct (Hf t Hg) as (s & ->). cbn. eexists. reflexivity.
Qed.

Lemma session_asks {T W} tb (S0 : search_cfg T W) o headers rows s : session_new tb S0 o headers rows = Ok (Some s) ->
  exists ops n y k, asks_ops tb o ops /\ usable rows (wo_columns o) n y /\ asks_loss (wo_loss o) k.
Proof.
  unfold session_new. cbv zeta. destruct (names_chosen tb o) as (r & -> & Hr). cbn [bind]. destruct r as [reg|e]; [|discriminate]. destruct Hr as (ops & Hops & ->).
  destruct (C45_columns T text (ec_F (eo_C (sc_E S0))) (lo_of_nat (ec_LO (eo_C (sc_E S0)))) x_name (wo_has_headers o) headers rows (wo_columns o))
    as [(Hno & ->)|(n & y & xs & d & names & w & Hu & Hxs & -> & _)]; [discriminate|]. cbn [bind]. intros X.
  apply bind_ok in X as (sp & _ & X). apply bind_ok in X as (tv & _ & X). destruct tv as [[a b]|]; [|discriminate]. destruct (loss_kind_of (wo_loss o)) as [k|] eqn:Ek; [|discriminate].
  exists ops, n, y, k. split; auto. split; auto. apply C66_loss_name. auto.
Qed.

(** A session as the constructor leaves it. *)
Record opened {T W} (s0 : session T W) (B : nat) : Prop := {
  op_live : live (se_cfg s0) (en_data (se_engine s0)) B;
  op_new : engine_new (se_cfg s0) (en_data (se_engine s0)) = Ok (se_engine s0);
  op_val : forall v, se_val s0 = Some v -> data_ok v /\ ds_n_features v = ds_n_features (en_data (se_engine s0));
  op_k : se_k s0 = 250 }.
Lemma session_opened {T W} tb (S0 : search_cfg T W) o headers rows s0 B : session_new tb S0 o headers rows = Ok (Some s0) -> live (se_cfg s0) (en_data (se_engine s0)) B -> opened s0 B.
Proof.
  intros Hn HL. destruct (session_asks _ _ _ _ _ _ Hn) as (ops & n & y & k & H1 & H2 & H3).
  destruct (C66_accepted tb S0 o headers rows ops n y k H1 H2 H3) as (xs & names & vr & tr & train & val & _ & _ & _ & _ & _ & (T1 & T2 & T3 & _) & Hv & E & _).
  rewrite E in Hn. apply bind_ok in Hn as (en & He & Hn). injection Hn as <-. cbn [se_cfg se_engine se_val se_k] in *. pose proof (engine_new_ok _ _ _ He) as (_ & Hd & _). rewrite Hd in *.
  split; cbn [se_cfg se_engine se_val se_k]; rewrite ?Hd; auto. intros v ->. destruct Hv as (Hne & V1 & V2 & V3 & _). pose proof (lv_data _ _ _ HL) as (_ & _ & D3). split; [|congruence].
  split; auto. split; [|lia]. rewrite V2. destruct vr; [congruence|cbn; lia].
Qed.

Lemma completes_dec {T} (C : eval_cfg T) d e t : completes C d e t \/ ~ completes C d e t.
Proof.
  unfold completes. destruct (forallb (finite_at (ec_F C) (ec_O C) e (ds_x d) t) (seq 0 (ds_n_rows d))) eqn:E.
  - assert (H : forall r, r < ds_n_rows d -> finite_at (ec_F C) (ec_O C) e (ds_x d) t r = true) by (intros r Hr; rewrite forallb_forall in E; apply E, in_seq; lia).
    destruct t as [f|i|o ch]; [left; split; auto; discriminate| |left; split; auto; discriminate].
    destruct (ffinite (ec_F C) (EvalTop.const_at (ec_F C) e i)) eqn:Ei; [left|right]; [split; auto; intros j [= <-]; exact Ei|]. intros [_ X]. specialize (X i eq_refl). congruence.
  - right. intros [H _]. assert (X : forallb (finite_at (ec_F C) (ec_O C) e (ds_x d) t) (seq 0 (ds_n_rows d)) = true) by (apply forallb_forall; intros r Hr; apply in_seq in Hr; apply H; lia). congruence.
Qed.

Section Calls.
Context {T W : Type} (tb : optable) (show : T -> text) (limit : nat).
Local Notation handle := (@handle T W tb show limit).
Local Notation converse := (@converse T W tb show limit).

Lemma steps_app (S1 : search_cfg T W) : forall ns en ns', steps S1 en (ns ++ ns') = let! (en, ks) := steps S1 en ns in let! (en, ks') := steps S1 en ns' in Ok (en, ks ++ ks').
Proof.
  induction ns as [|n ns IH]; intros en ns'; cbn [steps app bind].
  - destruct (steps S1 en ns') as [[en' ks]| |]; reflexivity.
  - destruct (step S1 en n) as [[en1 k]| |]; cbn [bind]; auto. rewrite IH. destruct (steps S1 en1 ns) as [[en2 ks]| |]; cbn [bind]; auto. destruct (steps S1 en2 ns') as [[en3 ks']| |]; reflexivity.
Qed.
Lemma converse_app : forall rs s rs', converse s (rs ++ rs') = let! (s, xs) := converse s rs in let! (s, xs') := converse s rs' in Ok (s, xs ++ xs').
Proof.
  induction rs as [|r rs IH]; intros s rs'; cbn [Session.converse app bind].
  - destruct (converse s rs') as [[s' xs]| |]; reflexivity.
  - destruct (handle s r) as [[s1 x]| |]; cbn [bind]; auto. rewrite IH. destruct (converse s1 rs) as [[s2 xs]| |]; cbn [bind]; auto. destruct (converse s2 rs') as [[s3 xs']| |]; reflexivity.
Qed.

(** What a call changes. *)
Lemma handle_frame s r s' x : handle s r = Ok (s', x) ->
  se_cfg s' = se_cfg s /\ se_names s' = se_names s /\ se_val s' = se_val s /\ se_split s' = se_split s
  /\ se_k s' = (match r with SetK k => k | _ => se_k s end)
  /\ match r with Step n => exists c, step (se_cfg s) (se_engine s) n = Ok (se_engine s', c) | _ => se_engine s' = se_engine s end.
Proof.
  unfold Session.handle. cbv zeta. destruct r as [k| | |n|k|id which]; intros H.
  - injection H as <- _. cbn. auto 10.
  - injection H as <- _. auto 10.
  - injection H as <- _. auto 10.
  - apply bind_ok in H as ([en c] & Hs & H). apply bind_ok in H as (sn & _ & H). injection H as <- _. cbn. repeat (split; auto). eauto.
  - apply bind_ok in H as (l & _ & H). injection H as <- _. auto 10.
  - destruct (parse_u64 limit id) as [i|]; [|injection H as <- _; auto 10]. destruct (if String.eqb which "train" then _ else _) as [d|]; [|injection H as <- _; auto 10].
    apply bind_ok in H as (o & _ & H). injection H as <- _. auto 10.
Qed.
Lemma converse_frame : forall rs s s' xs, converse s rs = Ok (s', xs) ->
  se_cfg s' = se_cfg s /\ se_names s' = se_names s /\ se_val s' = se_val s /\ se_split s' = se_split s
  /\ se_k s' = fold_left (fun k r => match r with SetK k' => k' | _ => k end) rs (se_k s)
  /\ List.length xs = List.length rs
  /\ exists ks, steps (se_cfg s) (se_engine s) (step_counts rs) = Ok (se_engine s', ks).
Proof.
  induction rs as [|r rs IH]; intros s s' xs H; cbn [Session.converse] in H.
  - injection H as <- <-. cbn. repeat (split; auto). eauto.
  - apply bind_ok in H as ([s1 x] & Hh & H). apply bind_ok in H as ([s2 xs2] & Hc & H). injection H as <- <-. apply handle_frame in Hh as (A1 & A2 & A3 & A4 & A5 & A6).
    apply IH in Hc as (B1 & B2 & B3 & B4 & B5 & B6 & ks & B7). rewrite B1, B2, B3, B4, B5, A1, A2, A3, A4, A5. cbn [fold_left List.length]. rewrite B6. repeat (split; auto).
    rewrite A1 in B7. unfold step_counts in *. destruct r as [k| | |n|k|id which]; cbn [flat_map app]; rewrite ?A6 in B7; eauto. destruct A6 as (c & A6). cbn [steps]. rewrite A6. cbn [bind]. rewrite B7. cbn. eauto.
Qed.

Section Opened.
Context (s0 : session T W) (B : nat) (Hop : opened s0 B).
Local Notation S1 := (se_cfg s0).
Local Notation full := (en_data (se_engine s0)).
Local Notation en0 := (se_engine s0).

(** What is known of the engine after some steps. *)
Lemma engine_facts ns en ks : steps S1 en0 ns = Ok (en, ks) ->
  en_data en = full
  /\ ss_completed (en_st en) = Nat.min (sum ns) (sc_niterations S1 * sc_populations S1)
  /\ (forall m, m = ss_best (en_st en) \/ In m (pareto_front (ec_F (eo_C (sc_E S1))) (ss_hall (en_st en))) ->
        exists eqn, string_tree tb show (Some (se_names s0)) false (m_expr m) = Ok eqn).
Proof.
  intros Hs. pose proof (op_new _ _ Hop) as Hn. split; [|split].
  - apply engine_new_ok in Hn as (Hen & _). destruct (steps_ok S1 _ _ _ _ _ _ Hen Hs) as (l & _ & _ & _ & E & _). exact E.
  - destruct (C37_cycles T W S1 full en0 ns en ks Hn Hs) as (l & _ & _ & L & E & _). congruence.
  - intros m Hm. destruct (C46_engine_sound T W S1 full B en0 ns en ks (lv_ok _ _ _ (op_live _ _ Hop)) Hn Hs) as (_ & Hb & _ & _ & Hh). cbv zeta in Hb, Hh.
    assert (Hso : sound (sc_E S1) (ds_n_features full) B (en_bl en0) m).
    { destruct Hm as [->|Hm]; auto. unfold pareto_front in Hm. apply Invariant.pareto_in, in_hof_members in Hm as (c & Hc). apply (Hh c m Hc). }
    destruct (so_expr _ _ _ _ _ Hso) as (t & Hr & Ht & _). eapply string_total; [exact Hr|exact Ht].
Qed.

(** The session after some calls, as far as the replies depend on it. *)
Definition current (s : session T W) (before : list request) : Prop :=
  se_cfg s = S1 /\ se_names s = se_names s0 /\ se_val s = se_val s0 /\ se_split s = se_split s0 /\ se_k s = points_wanted before
  /\ exists ks, steps S1 en0 (step_counts before) = Ok (se_engine s, ks).
Lemma current_after rs s xs : converse s0 rs = Ok (s, xs) -> current s rs.
Proof. intros H. apply converse_frame in H as (A1 & A2 & A3 & A4 & A5 & _ & A6). unfold current, points_wanted. rewrite <- (op_k _ _ Hop). auto 10. Qed.
Lemma counts_snoc rs r : step_counts (rs ++ [r]) = step_counts rs ++ match r with Step n => [n] | _ => [] end.
Proof. unfold step_counts. rewrite flat_map_app. cbn [flat_map]. rewrite app_nil_r. reflexivity. Qed.

Lemma summary_ok m : (exists eqn, string_tree tb show (Some (se_names s0)) false (m_expr m) = Ok eqn) ->
  exists su, summary_from_member tb show (se_names s0) m = Ok su /\ is_summary tb show (se_names s0) m su.
Proof.
  intros (eqn & E). unfold summary_from_member. rewrite E. cbn. eexists. split; [reflexivity|]. split; [|exact E]. cbn. split; [apply C66_decimal|auto].
Qed.
Lemma last_kept {A} k (l : list A) : last_part k l (last_of k l).
Proof. apply C58_last. Qed.
Lemma last_in {A} k (l : list A) x : In x (last_of k l) -> In x l.
Proof. destruct (C58_last A k l) as (d & E & _). intros H. rewrite E. apply in_app_iff. auto. Qed.

Lemma counted n ns : sum (ns ++ [n]) = sum ns + n.
Proof. unfold sum. induction ns as [|a ns IH]; cbn [fold_right app] in *; [lia|rewrite IH; lia]. Qed.

(** Every call succeeds, unless a tournament keeps drawing invalid numbers for ever; and its reply is the proper one. *)
Lemma handle_ok before s r : current s before -> handle s r <> Panic
  /\ forall s' x, handle s r = Ok (s', x) -> proper tb show limit s0 before (se_engine s') r x.
Proof.
  intros (C1 & C2 & C3 & C4 & C5 & ks & C6). pose proof (engine_facts _ _ _ C6) as (E1 & E2 & E3). pose proof (op_new _ _ Hop) as Hn. pose proof (op_live _ _ Hop) as HL.
  unfold Session.handle, proper. cbv zeta. rewrite C1. destruct r as [k| | |n|k|id which].
  - split; [discriminate|]. intros s' x [= <- <-]. reflexivity.
  - split; [discriminate|]. intros s' x [= <- <-]. rewrite C4. reflexivity.
  - split; [discriminate|]. intros s' x [= <- <-]. eexists. split; [reflexivity|]. unfold is_finished, total_cycles. rewrite E2, Nat.eqb_eq. lia.
  - destruct (C49_engine T W S1 full B HL) as (en0' & Hn' & Hsafe & _). assert (en0' = en0) by congruence. subst en0'. specialize (Hsafe (step_counts before ++ [n])). rewrite steps_app, C6 in Hsafe. cbn [bind steps] in Hsafe.
    destruct (step S1 (se_engine s) n) as [[en c]| |] eqn:Es; cbn [bind] in *; [|contradiction Hsafe; reflexivity|split; discriminate].
    assert (Hs' : steps S1 en0 (step_counts before ++ [n]) = Ok (en, ks ++ [c])) by (rewrite steps_app, C6; cbn [bind steps]; rewrite Es; reflexivity).
    destruct (engine_facts _ _ _ Hs') as (G1 & G2 & G3). destruct (summary_ok (ss_best (en_st en)) (G3 _ (or_introl eq_refl))) as (su & Esu & Hsu).
    unfold take_snapshot. cbn [se_engine se_names se_cfg se_k]. rewrite C2, Esu. cbn [bind]. split; [discriminate|]. intros s' x [= <- <-]. cbn [se_engine]. rewrite C5.
    do 2 eexists. split; [reflexivity|]. cbn [sn_total sn_completed sn_evals sn_best sn_points]. split; [reflexivity|]. split; [rewrite G2, counted; reflexivity|]. split; [reflexivity|]. split; [exact Hsu|].
    split; [apply last_kept|]. generalize (last_of (points_wanted before) (pareto_front (ec_F (eo_C (sc_E S1))) (ss_hall (en_st en)))). induction l as [|m l IH]; cbn; constructor; auto. split; [apply C66_decimal|auto].
  - rewrite C2. set (front := pareto_front _ _).
    assert (Hall : exists l, mapM (summary_from_member tb show (se_names s0)) (last_of k front) = Ok l /\ Forall2 (is_summary tb show (se_names s0)) (last_of k front) l).
    { assert (H : forall m, In m (last_of k front) -> exists su, summary_from_member tb show (se_names s0) m = Ok su /\ is_summary tb show (se_names s0) m su)
        by (intros m Hm; apply summary_ok, E3; right; eapply last_in; exact Hm).
      induction (last_of k front) as [|m l IH]; [exists []; split; [reflexivity|constructor]|]. destruct (H m (or_introl eq_refl)) as (su & A1 & A2). destruct IH as (l' & B1 & B2); [intros; apply H; right; auto|].
      exists (su :: l'). cbn [mapM]. rewrite A1. cbn [bind]. rewrite B1. split; [reflexivity|constructor; auto]. }
    destruct Hall as (l & -> & Hl). cbn [bind]. split; [discriminate|]. intros s' x [= <- <-]. exists l, (last_of k front). split; [reflexivity|]. split; [apply last_kept|exact Hl].
  - assert (Hdn : forall d, data_named s0 which d <-> (if String.eqb which "train" then Some (en_data (se_engine s)) else if String.eqb which "val" then se_val s else None) = Some d).
    { intros d. unfold data_named. rewrite E1, C3. destruct (String.eqb_spec which "train") as [->|N1]; [split; [intros [[_ ->]|[X _]]; [reflexivity|discriminate X]|intros [= <-]; left; auto]|].
      destruct (String.eqb_spec which "val") as [->|N2]; [split; [intros [[X _]|[_ X]]; [discriminate X|exact X]|intros X; right; auto]|]. split; [intros [[X _]|[X _]]; contradiction|discriminate]. }
    destruct (parse_u64 limit id) as [i|] eqn:Ei.
    2:{ split; [discriminate|]. intros s' x [= <- <-]. split; auto. intros i d m Hi _ _. apply C66_number in Hi. congruence. }
    destruct (if String.eqb which "train" then _ else _) as [d|] eqn:Ed.
    2:{ split; [discriminate|]. intros s' x [= <- <-]. split; auto. intros i' d m _ Hd _. apply Hdn in Hd. congruence. }
    assert (Hd : data_ok d /\ ds_n_features d = ds_n_features full).
    { destruct (proj2 (Hdn d) eq_refl) as [[_ ->]|[_ Hv]]; [split; [apply (lv_data _ _ _ HL)|reflexivity]|apply (op_val _ _ Hop _ Hv)]. }
    destruct Hd as [Hd1 Hd2].
    destruct (C58_evaluate_member T W S1 full B en0 _ _ _ d i (lv_ok _ _ _ HL) Hn C6 Hd1 Hd2) as [V1 V2]. cbv zeta in V1, V2.
    set (out := evaluate_member _ _ _ _ d i) in *.
    destruct (C58_lookup T (en_st (se_engine s)) i) as [L1 L2].
    assert (Hi : forall j, numeral limit id j -> j = i) by (intros j Hj; apply C66_number in Hj; congruence).
    assert (Hdd : forall d', data_named s0 which d' -> d' = d) by (intros d' Hd'; apply Hdn in Hd'; congruence).
    destruct (find_member_by_id (en_st (se_engine s)) i) as [m|] eqn:Ef.
    + assert (Hm : shown (en_st (se_engine s)) i m) by (apply L1; reflexivity). destruct (V2 m Hm) as (t & R & N & Y).
      assert (Hu : forall m', shown (en_st (se_engine s)) i m' -> m' = m) by (intros m' Hm'; apply L1 in Hm'; congruence).
      destruct (completes_dec (eo_C (sc_E S1)) d (m_expr m) t) as [Hc|Hc].
      * destruct (Y Hc) as (mt & -> & Hmt). cbn [bind]. split; [discriminate|]. intros s' x [= <- <-]. split; [intros X; exfalso; apply (X i d m); split; [apply C66_number, Ei|split; [apply Hdn; reflexivity|exact Hm]]|].
        intros i' d' m' I1 I2 I3. apply Hi in I1 as ->. apply Hdd in I2 as ->. apply Hu in I3 as ->. exists t. split; auto. split; [contradiction|]. intros _. eauto.
      * rewrite (N Hc). cbn [bind]. split; [discriminate|]. intros s' x [= <- <-]. split; auto. intros i' d' m' I1 I2 I3. apply Hi in I1 as ->. apply Hdd in I2 as ->. apply Hu in I3 as ->.
        exists t. split; auto. split; auto. contradiction.
    + assert (Hno : forall m, ~ shown (en_st (se_engine s)) i m) by (intros m Hm; apply L1 in Hm; discriminate). rewrite (V1 Hno). cbn [bind]. split; [discriminate|]. intros s' x [= <- <-]. split; auto.
      intros i' d' m' I1 _ I3. apply Hi in I1 as ->. exfalso. eapply Hno; eauto.
Qed.
End Opened.
End Calls.

(** ** The session *)
Section Main.
Context {T W : Type} (tb : optable) (S0 : search_cfg T W) (o : web_opts T) (headers : list text) (rows : list (list T)) (s0 : session T W) (B : nat)
  (Hnew : session_new tb S0 o headers rows = Ok (Some s0)) (Hlive : live (se_cfg s0) (en_data (se_engine s0)) B) (show : T -> text) (limit : nat).

(** No sequence of calls makes the session panic. *)
Theorem C66_no_panic : forall rs, converse tb show limit s0 rs <> Panic.
Proof.
  pose proof (session_opened _ _ _ _ _ _ _ Hnew Hlive) as Hop. induction rs as [|r rs IH] using rev_ind; [discriminate|]. rewrite converse_app.
  destruct (converse tb show limit s0 rs) as [[s xs]| |] eqn:E; cbn [bind]; [|exact IH|discriminate]. cbn [converse].
  destruct (handle_ok tb show limit s0 B Hop rs s r (current_after tb show limit s0 B Hop rs s xs E)) as [H _]. destruct (handle tb show limit s r) as [[s' x]| |]; cbn [bind]; [discriminate|congruence|discriminate].
Qed.

(** Each call gets the proper reply, whatever was called before; the engine is advanced by the [step] calls only. *)
Theorem C66_replies : forall rs r s xs, converse tb show limit s0 (rs ++ [r]) = Ok (s, xs) ->
  exists s1 ys x ks, converse tb show limit s0 rs = Ok (s1, ys) /\ xs = ys ++ [x] /\ List.length ys = List.length rs
    /\ steps (se_cfg s0) (se_engine s0) (step_counts (rs ++ [r])) = Ok (se_engine s, ks)
    /\ proper tb show limit s0 rs (se_engine s) r x.
Proof.
  pose proof (session_opened _ _ _ _ _ _ _ Hnew Hlive) as Hop. intros rs r s xs H. pose proof (converse_frame _ _ _ _ _ _ _ H) as (_ & _ & _ & _ & _ & _ & ks & Hs).
  rewrite converse_app in H. apply bind_ok in H as ([s1 ys] & H1 & H). apply bind_ok in H as ([s2 zs] & H2 & H). injection H as <- <-. cbn [converse] in H2. apply bind_ok in H2 as ([s3 x] & Hh & H2). injection H2 as <- <-.
  destruct (handle_ok tb show limit s0 B Hop rs s1 r (current_after tb show limit s0 B Hop rs s1 ys H1)) as [_ Hp]. specialize (Hp _ _ Hh).
  pose proof (converse_frame _ _ _ _ _ _ _ H1) as (_ & _ & _ & _ & _ & Hl & _). exists s1, ys, x, ks. auto 10.
Qed.

(** Looking does not disturb: two conversations with the same [step] calls leave the search in the same state. *)
Theorem C66_looking : forall rs rs' s s' xs xs', converse tb show limit s0 rs = Ok (s, xs) -> converse tb show limit s0 rs' = Ok (s', xs') ->
  step_counts rs = step_counts rs' -> se_engine s = se_engine s'.
Proof.
  intros rs rs' s s' xs xs' H H' E. apply converse_frame in H as (_ & _ & _ & _ & _ & _ & ks & Hs). apply converse_frame in H' as (_ & _ & _ & _ & _ & _ & ks' & Hs'). congruence.
Qed.
End Main.

Lemma front_in {T} (F : FloatOps T) (ms : list (member T)) : forall b m, In m (pareto_loop F ms b) -> In m ms.
Proof. induction ms as [|a ms IH]; intros b m; cbn [pareto_loop]; auto. destruct (fltb F (m_loss a) b); cbn [In]; intros H; [destruct H; eauto|eauto]. Qed.
(** The id under which a member is shown can be sent back: it reads as the member's id, and a member with that id is found. *)
Theorem C66_ids : forall (T : Type) (F : FloatOps T) (st : search_st T) limit m p, m = ss_best st \/ In m (pareto_front F (ss_hall st)) -> is_point m p -> m_id m <= limit ->
  numeral limit (pt_id p) (m_id m) /\ exists m', shown st (m_id m) m'.
Proof.
  intros T F st limit m p Hm (Hp & _) Hl. split; [split; auto; exists (pt_id p); auto|]. destruct (C58_lookup T st (m_id m)) as [L1 L2].
  destruct (find_member_by_id st (m_id m)) as [m'|] eqn:Ef; [exists m'; apply L1; auto|]. exfalso. destruct (proj1 L2 eq_refl) as [N1 N2]. destruct Hm as [->|Hm]; [congruence|].
  unfold pareto_front in Hm. apply front_in, in_hof_members in Hm as (c & Hc). apply (N2 c m Hc eq_refl).
Qed.

(** The listing of operators: all of them, once; and each can be chosen by its listed name at its listed arity, alone or with others. *)
Theorem C66_listing :
  (forall op, op_of builtin_table op -> In (fst op, op_name builtin_table op) (listing builtin_table))
  /\ NoDup (listing builtin_table)
  /\ forall a name, In (a, name) (listing builtin_table) -> exists op, fst op = a /\ op_name builtin_table op = name /\ lookup_with_arity builtin_table name a = inl op.
Proof.
  split; [|split].
  - intros [a id] [Ha Hi]. unfold listing. cbn [fst snd] in *. rewrite in_flat_map. exists a. split; [apply in_seq; lia|]. apply in_map_iff. exists id. auto.
  - assert (G : (fix once (l : list (nat * string)) : bool := match l with [] => true | p :: l' => negb (existsb (fun q => (fst p =? fst q) && String.eqb (snd p) (snd q)) l') && once l' end) (listing builtin_table) = true)
      by (vm_compute; reflexivity).
    revert G. generalize (listing builtin_table). induction l as [|p l IH]; intros G; constructor; apply andb_true_iff in G as [G1 G2]; auto.
    intros Hi. apply negb_true_iff in G1. assert (X : existsb (fun q => (fst p =? fst q) && String.eqb (snd p) (snd q)) l = true); [|congruence].
    apply existsb_exists. exists p. split; auto. rewrite Nat.eqb_refl, String.eqb_refl. reflexivity.
  - intros a name H.
    assert (G : forallb (fun p => match lookup_with_arity builtin_table (snd p) (fst p) with inl op => (fst op =? fst p) && String.eqb (op_name builtin_table op) (snd p) | inr _ => false end) (listing builtin_table) = true)
      by (vm_compute; reflexivity).
    rewrite forallb_forall in G. specialize (G _ H). cbn [fst snd] in G. destruct (lookup_with_arity builtin_table name a) as [op|e]; [|discriminate]. apply andb_true_iff in G as [G1 G2].
    exists op. split; [apply Nat.eqb_eq, G1|]. split; [apply String.eqb_eq, G2|reflexivity].
Qed.

(** ** A session in exact arithmetic: four rows of two columns, one of them kept for validation; the operators + and *, the loss " MSE ". *)
Definition web_cfg : eval_cfg xq :=
  mkEvalCfg xqops xq_loss_ops (rational_ops xqops) exact_hash (u16_max + 1) 3 (mkSizeOpts 1 1 None [] 10 [] []) (make_loss xqops xq_loss_ops LMae) (XF (1 # 10)) true.
Definition web_evo : evo_cfg xq :=
  mkEvo web_cfg (eo_opt live_evo) [[]; []; []] (all_weights 1)
    true (XF (1 # 2)) (fun _ _ _ v => v) (mkCfg (Some 0) (Some 5) (Some 7)) false (XF 1) false (fun x => x) (XF (1 # 1000000))
    (fun n => XF (inject_Z (Z.of_nat n))) (XF (1 # 10)) true (mkSel 2 (XF (1 # 2)) false (XF 0) 9) 20 [] 1.
Definition web_search : search_cfg xq xq := search_with web_evo 2 2 false 1.
Definition web_rows : list (list xq) := [[XF 1; XF 2]; [XF 2; XF 4]; [XF 3; XF 7]; [XF 4; XF 8]]%Q.
Definition web_demo (loss : string) (columns_ : columns) : web_opts xq :=
  mkWebOpts true columns_ (fun _ => 1) (mkRng (fun k => 5 + k) (fun _ => XF 0)) (mkLossOpts loss (XF 1) (XF 2) (XF (1 # 2)) (XF (1 # 10))) [] ["+"; " Mul "]%string [].
Definition web_headers : list text := [text_of "a"; text_of "b"].
Definition show_xq (x : xq) : text := match x with XF q => decimal (Z.to_nat (Qnum q)) ++ text_of "/" ++ decimal (Pos.to_nat (Qden q)) | _ => text_of "?" end.
Definition web_open : res (option (session xq xq)) := session_new builtin_table web_search (web_demo " MSE " (mkColumns None None None)) web_headers web_rows.
Definition web_reg : registry := [[]; [(2, 0); (2, 5)]; []].
Definition web_S1 : search_cfg xq xq := with_choices web_search web_reg LMse.
Definition web_train : dataset xq := mkData (mkMat [XF 4; XF 1; XF 2] 1 3) [XF 8; XF 2; XF 4] 1 3 None (XF (14 # 3)).
Definition web_val : dataset xq := mkData (mkMat [XF 3] 1 1) [XF 7] 1 1 None (XF 7).
Lemma web_built : web_open = let! en := engine_new web_S1 web_train in Ok (Some (mkSession web_S1 en [text_of "a"] (Some web_val) ([2], [3; 0; 1]) 250)).
Proof.
  unfold web_open, session_new. cbv zeta. set (o := web_demo _ _). replace (from_names_by_arity builtin_table 3 (wo_unary o) (wo_binary o) (wo_ternary o)) with (@Ok (registry + select_error) (inl web_reg)) by (vm_compute; reflexivity). cbn [bind].
  set (b := build_full_dataset _ _ _ _ _ _ _). replace b with (Ok (Some (mkData (mkMat [XF 1; XF 2; XF 3; XF 4] 1 4) [XF 2; XF 4; XF 7; XF 8] 1 4 None (XF (21 # 4)), [text_of "a"], @None (list xq)))) by (vm_compute; reflexivity).
  cbn [bind ds_n_rows]. replace (make_split_indices 4 (wo_rounded o) (wo_rng o)) with (Ok ([2], [3; 0; 1])) by (vm_compute; reflexivity). cbn [bind].
  set (v := split_train_val _ _ _ _ _). replace v with (Ok (Some (web_train, Some web_val))) by (vm_compute; reflexivity). cbn [bind]. replace (loss_kind_of (wo_loss o)) with (Some (@LMse xq)) by (vm_compute; reflexivity). reflexivity.
Qed.
Lemma web_evo_ok : evo_ok (sc_E web_S1) 1 9 9.
Proof.
  split.
  - split; [|split; [unfold u16_max; lia|cbn; unfold u8_max; lia]]. split; [reflexivity|]. intros [|[|[|[|a]]]] op Ha Hin; cbn in Ha; try lia; cbn in Hin; try tauto.
    destruct Hin as [<-|[<-|[]]]; split; reflexivity.
  - constructor; cbn; try (unfold u16_max; lia); try discriminate.
  - intros [f|i|a op]; cbn; lia.
  - lia.
  - cbn. unfold u16_max. lia.
Qed.
Lemma web_live : live web_S1 web_train 9.
Proof.
  split.
  - split; [exact web_evo_ok|lia|]. apply demo_limit; reflexivity.
  - split; [|split; cbn; unfold u16_max; lia]. repeat split; auto. cbn. discriminate.
  - left. reflexivity.
  - intros d Hd. apply (make_loss_total xqops xq_loss_ops LMse); auto.
  - cbn. lia.
  - cbn. lia.
  - cbn. lia.
  - cbv zeta. destruct (C49_place xqops xval xq_exact (XF (1 # 2)) eq_refl ltac:(reflexivity)) as [H|[H1 H2]]; [left; exact H|right]. split; [exact H1|]. intros n Hn. apply H2. lia.
  - intros e cx cur _ _. apply (C49_weights xqops xval xq_exact).
    + intros n. split; reflexivity.
    + intros []; split; cbn; auto; unfold Qle; cbn; lia.
    + left. cbn. unfold Qlt. cbn. lia.
  - intros [| |]; reflexivity.
  - apply (ol_irr _ xq_order_laws).
  - intros _. split; [cbn; lia|reflexivity].
  - intros rem. unfold get_cur_maxsize. cbn. discriminate.
Qed.
Lemma web_opened : exists s0, web_open = Ok (Some s0) /\ live (se_cfg s0) (en_data (se_engine s0)) 9.
Proof.
  destruct (C49_engine _ _ web_S1 web_train 9 web_live) as (en & He & _). eexists. split; [rewrite web_built, He; reflexivity|]. cbn [se_cfg se_engine].
  pose proof (engine_new_ok _ _ _ He) as (_ & -> & _). exact web_live.
Qed.

(** What a page would show of a reply. *)
Definition brief (r : reply xq) : list nat * list string :=
  let s := string_of_list_ascii in
  match r with
  | Done => ([], ["done"]) | TheSplit a b => ((a ++ b)%list, ["split"]) | Finished b => ([], [if b then "finished" else "not finished"])
  | Snap sn => ([sn_completed sn; sn_total sn], s (su_equation (sn_best sn)) :: map (fun p => s (pt_id p)) (sn_points sn))
  | Equations l => (map (fun x => pt_complexity (su_point x)) l, map (fun x => s (su_equation x)) l)
  | Evaluated mt yhat => ([mt_n mt], map (fun y => s (show_xq y)) yhat)
  | Refused => ([], ["error"])
  end%string.
Definition web_calls : list request :=
  [Step 1; EvaluateMember (text_of "0") "train"; SetK 1; IsFinished; Step 9; IsFinished; BestEquations 5; EvaluateMember (text_of "+02") "val"; EvaluateMember (text_of "0") "train";
   EvaluateMember (text_of "2") "test"; EvaluateMember (text_of "2x") "val"; GetSplit].
Definition replies_of {A} (f : reply xq -> A) tb show limit (r : res (option (session xq xq))) (rs : list request) : option (list A) :=
  match r with Ok (Some s) => match converse tb show limit s rs with Ok (_, xs) => Some (map f xs) | _ => None end | _ => None end.
Lemma replies_of_inv {A} (f : reply xq -> A) tb show limit r rs l : replies_of f tb show limit r rs = Some l ->
  forall s0, r = Ok (Some s0) -> exists s xs, converse tb show limit s0 rs = Ok (s, xs) /\ map f xs = l.
Proof. unfold replies_of. intros H s0 ->. destruct (converse tb show limit s0 rs) as [[s xs]| |]; try discriminate. injection H as <-. eauto. Qed.

Example C66_case : exists s0, web_open = Ok (Some s0) /\ live (se_cfg s0) (en_data (se_engine s0)) 9
  /\ exists s xs, converse builtin_table show_xq 1000 s0 web_calls = Ok (s, xs)
     /\ map brief xs = [([1; 4], ["((3/7 * a) * a) + a"; "0"]); ([3], ["76/7"; "10/7"; "26/7"]); ([], ["done"]); ([], ["not finished"]); ([4; 4], ["a + a"; "2"]); ([], ["finished"]);
          ([1; 3], ["a"; "a + a"]); ([1], ["6/1"]); ([], ["error"]); ([], ["error"]); ([], ["error"]); ([3; 0; 1; 2], ["split"])]%string.
Proof.
  destruct web_opened as (s0 & H1 & H2). exists s0.
  assert (E : replies_of brief builtin_table show_xq 1000 web_open web_calls = Some
    [([1; 4], ["((3/7 * a) * a) + a"; "0"]); ([3], ["76/7"; "10/7"; "26/7"]); ([], ["done"]); ([], ["not finished"]); ([4; 4], ["a + a"; "2"]); ([], ["finished"]);
     ([1; 3], ["a"; "a + a"]); ([1], ["6/1"]); ([], ["error"]); ([], ["error"]); ([], ["error"]); ([3; 0; 1; 2], ["split"])]%string) by (vm_compute; reflexivity).
  exact (conj H1 (conj H2 (replies_of_inv brief builtin_table show_xq 1000 web_open web_calls _ E s0 H1))).
Qed.
(** Refused: an unknown loss, a target column that does not exist, an operator asked for twice. *)
Example C66_refused :
  session_new builtin_table web_search (web_demo "chi2" (mkColumns None None None)) web_headers web_rows = Ok None
  /\ session_new builtin_table web_search (web_demo "mse" (mkColumns None (Some 2) None)) web_headers web_rows = Ok None
  /\ session_new builtin_table web_search (mkWebOpts true (mkColumns None None None) (fun _ => 1) (mkRng (fun k => k) (fun _ => XF 0)) (wo_loss (web_demo "mse" (mkColumns None None None))) [] ["add"; "+"]%string []) web_headers web_rows = Ok None.
Proof. repeat split; vm_compute; reflexivity. Qed.

(** Nothing checks that training rows are left: if all rows go to validation (five rows or fewer, see C41), the session opens, and every equation is reported with loss 0. *)
Definition all_validation : web_opts xq :=
  mkWebOpts true (mkColumns None None None) (fun n => n) (mkRng (fun k => 5 + k) (fun _ => XF 0)) (mkLossOpts "mse" (XF 1) (XF 2) (XF (1 # 2)) (XF (1 # 10))) [] ["+"; "*"]%string [].
Definition zero_losses (r : reply xq) : list (nat * bool * string) :=
  match r with
  | Snap sn => [(sn_completed sn, feqb xqops (pt_loss (su_point (sn_best sn))) (XF 0), string_of_list_ascii (su_equation (sn_best sn)))]
  | Evaluated mt yhat => [(mt_n mt, feqb xqops (mt_mse mt) (XF 0), EmptyString)]
  | _ => []
  end.
Theorem C66_no_training_rows_refuted :
  replies_of zero_losses builtin_table show_xq 1000 (session_new builtin_table web_search all_validation web_headers web_rows) [Step 9; EvaluateMember (text_of "0") "train"; EvaluateMember (text_of "0") "val"]
  = Some [[(4, true, "((3/7 * a) * a) + a"%string)]; [(0, true, ""%string)]; [(4, false, ""%string)]].
Proof. vm_compute. reflexivity. Qed.

Print Assumptions C66_no_training_rows_refuted.
Print Assumptions C66_loss_name.
Print Assumptions C66_loss_parse.
Print Assumptions C66_number.
Print Assumptions C66_decimal.
Print Assumptions C66_error.
Print Assumptions C66_accepted.
Print Assumptions C66_no_panic.
Print Assumptions C66_replies.
Print Assumptions C66_looking.
Print Assumptions C66_ids.
Print Assumptions C66_listing.
