(** Property C72: no admissible formula is out of reach. From every state of a running search there are random draws
    after which the next step, and the next iteration, has found the formula. *)
From Coq Require Import List ZArith NArith QArith Lqa SpecFloat Permutation.
From Verif Require Import Base BaseLemmas Node Tree NodeProofs SpanProofs Compile CompileProofs Eval EvalProofs EvalTop Deriv DerivReach PropEval Utils UtilsProofs PropUtils Simplify PropSimplify
  Rng Registry PropRegistry Lit Mutation MutationProofs PropMutation Complexity ComplexitySpec ComplexityProofs PropComplexity Num Member SortProofs PropHof Selection SelectionProofs
  PropSelection Conditioning PropConditioning Dataset PropDataset Loss PropLoss Optim PropOptim PropOptimTotal ConstOpt PropConstOpt Evolution Frames PropEvolution Search PropSearch PropIds
  Ready Invariant PropWhole PropCosts PropHall PropPanic PropLive Instances PropComplete Session Options PropOptions PropDefaults.
Import ListNotations.
Local Open Scope nat_scope.

(** ** Specification *)
(** A value a draw from [0, 1) can have. *)
Definition uniform {T} (F : FloatOps T) (u : T) : Prop := fleb F (fzero F) u = true /\ fltb F u (fone F) = true.

(** The same formula: the same tree with the same constants, however the constants are numbered. *)
Definition same_formula {T} (F : FloatOps T) (e e' : expr T) : Prop := exists x, denotes F e x /\ denotes F e' x.

(** The constants of an expression that its nodes use. *)
Definition used {T} (e : expr T) (v : T) : Prop := exists i, In (Const i) (nodes e) /\ nth_error (consts e) i = Some v.

(** An admissible formula: over the configured operators and the features of the data, within the limits at [cur], finite on all rows, with this
    finite loss and a finite cost. *)
Record admissible {T} (E : evo_cfg T) (d : dataset T) (bl : option T) (cur : nat) (e : expr T) (t : tree) (loss : T) : Prop := {
  ad_spells : represents e t;
  ad_wf : tree_ok (ec_D (eo_C E)) (ds_n_features d) (List.length (consts e)) (reg_known (eo_reg E)) t;
  ad_feasible : feasible (ec_size (eo_C E)) cur t;
  ad_completes : completes (eo_C E) d e t;
  ad_loss : lf_loss (ec_loss (eo_C E)) (predictions (eo_C E) d e t) (ds_y d) (ds_weights d) = Ok loss;
  ad_finite : ffinite (ec_F (eo_C E)) loss = true;
  ad_cost : ffinite (ec_F (eo_C E)) (to_w (eo_opt E) (cost_of E loss (cost (ec_size (eo_C E)) t) bl) (finf (ec_F (eo_C E)))) = true }.

(** Every draw on the way to a new random member has a chance: mutations are not excluded by the crossover probability, new random formulas are not excluded by
    the weights, acceptance is not excluded by the statistics; the loop of the tournament is given enough fuel. *)
Record chances {T W} (S0 : search_cfg T W) (full : dataset T) (B : nat) (st : stats T) : Prop := {
  ch_mutation : exists u, uniform (ec_F (eo_C (sc_E S0))) u /\ fgtb (ec_F (eo_C (sc_E S0))) u (eo_crossover_prob (sc_E S0)) = true;
  ch_randomize : forall (e : expr T) complexity cur, wf_expr (sc_E S0) (ds_n_features full) B e -> cur <= sel_maxsize (eo_sel (sc_E S0)) ->
    exists u, uniform (ec_F (eo_C (sc_E S0))) u /\ forall g, sample_mutation (ec_F (eo_C (sc_E S0))) (next_real u g)
      (condition_mutation_weights (ec_F (eo_C (sc_E S0))) (eo_of_nat (sc_E S0)) (eo_weights (sc_E S0)) e complexity
        (mkCond (eo_simplify (sc_E S0)) (oc_enabled (eo_opt (sc_E S0))) (eo_opt_prob (sc_E S0))) cur (ds_n_features full)) = Ok (Randomize, g);
  ch_accept : forall temp c1 c2 s1 s2 p, acceptance (sc_E S0) st temp c1 c2 s1 s2 = Ok p -> fltb (ec_F (eo_C (sc_E S0))) p (fzero (ec_F (eo_C (sc_E S0)))) = false;
  ch_zero : uniform (ec_F (eo_C (sc_E S0))) (fzero (ec_F (eo_C (sc_E S0))));
  ch_fuel : tournament_selection_n (eo_sel (sc_E S0)) <= eo_fuel (sc_E S0) }.

(** The draws that lead to a formula: uniform ones, and its constants. *)
Definition toward {T} (F : FloatOps T) (e0 : expr T) (v : T) : Prop := uniform F v \/ used e0 v.

(** The member [m] carries the formula, with its complexity, loss and cost, and is sound. *)
Definition is_found {T} (E : evo_cfg T) (nf B : nat) (bl : option T) (e0 : expr T) (t0 : tree) (loss : T) (m : member T) : Prop :=
  same_formula (ec_F (eo_C E)) e0 (m_expr m) /\ m_complexity m = cost (ec_size (eo_C E)) t0 /\ m_loss m = loss
  /\ m_cost m = cost_of E loss (cost (ec_size (eo_C E)) t0) bl /\ sound E nf B bl m.

(** The hall of fame [h] holds, at complexity [c], a member that costs [v] or less. *)
Definition as_good {T} (F : FloatOps T) (h : hof T) (c : nat) (v : T) : Prop :=
  exists m, stored h c m /\ m_complexity m = c /\ (fltb F (m_cost m) v = true \/ feqb F (m_cost m) v = true).

(** The same task with another generator. *)
Definition redraw {T} (t : task T) (g : rng T) : task T :=
  let ps := tk_pop t in mkTask (tk_idx t) (tk_cur t) (tk_stats t) (mkPop (ps_pop ps) (mkEvoSt g (es_ev (ps_st ps)) (es_id (ps_st ps)) (es_birth (ps_st ps))) (ps_gc ps) (ps_batch ps)).

(** ** What the spelling of a formula does not matter for *)
Section Alike.
Context {T : Type} (c c' : nat -> T).
Lemma lit_op_inv op ts t : lit c t = XOp op ts -> exists cs, t = TOp op cs /\ map (lit c) cs = ts.
Proof. destruct t; cbn; try discriminate. intros [= -> <-]. eauto. Qed.
Lemma alike_children op cs op' cs' : lit c (TOp op cs) = lit c' (TOp op' cs') -> op = op' /\ map (lit c) cs = map (lit c') cs'.
Proof. cbn. intros [= -> H]. auto. Qed.
Lemma map_eq_length {A B C} (f : A -> C) (g : B -> C) l l' : map f l = map g l' -> List.length l = List.length l'.
Proof. intros H. apply (f_equal (@List.length C)) in H. now rewrite !map_length in H. Qed.
Lemma map_eq_in {A B C} (f : A -> C) (g : B -> C) l : forall l' y, map f l = map g l' -> In y l' -> exists x, In x l /\ f x = g y.
Proof.
  intros l' y H Hy. apply (in_map g) in Hy. rewrite <- H in Hy. apply in_map_iff in Hy as (x & ? & ?). eauto.
Qed.
Lemma map_eq_nth {A B C} (f : A -> C) (g : B -> C) l : forall l' j y, map f l = map g l' -> nth_error l' j = Some y -> exists x, nth_error l j = Some x /\ f x = g y.
Proof.
  intros l' j y H Hy. apply (map_nth_error g) in Hy. rewrite <- H, nth_error_map in Hy. destruct (nth_error l j) as [x|]; [|discriminate]. injection Hy as Hy. eauto.
Qed.

Lemma alike_cost o t : forall t', lit c t = lit c' t' -> cost o t = cost o t'.
Proof.
  induction t as [f|i|op cs IH] using tree_ind'; intros [f'|i'|op' cs'] H; try discriminate; cbn [cost].
  - cbn in H. injection H as ->. reflexivity.
  - reflexivity.
  - apply alike_children in H as [-> H]. rewrite (map_eq_length _ _ _ _ H). f_equal. f_equal. revert cs' H. induction IH as [|x cs Hx _ IH2]; intros [|y cs'] H; try discriminate; auto.
    cbn in *. injection H as H1 H2. f_equal; auto.
Qed.
Lemma alike_subtree t s' t' : subtree s' t' -> lit c t = lit c' t' -> exists s, subtree s t /\ lit c s = lit c' s'.
Proof.
  intros Hs. revert t. induction Hs as [t'|s' op cs' k' Hin Hs IH]; intros t H; [exists t; split; [constructor|auto]|].
  cbn in H. apply lit_op_inv in H as (cs & -> & H). destruct (map_eq_in _ _ _ _ _ H Hin) as (k & Hk & E). destruct (IH k E) as (s & S1 & S2). exists s. split; auto. econstructor; eauto.
Qed.
Lemma alike_path t t' p : path t' p -> lit c t = lit c' t' -> path t p.
Proof.
  intros Hp. revert t. induction Hp as [t'|op cs' k' p Hin Hp IH]; intros t H; [constructor|].
  cbn in H. apply lit_op_inv in H as (cs & -> & H). destruct (map_eq_in _ _ _ _ _ H Hin) as (k & Hk & E). rewrite <- (map_eq_length _ _ _ _ H). econstructor; eauto.
Qed.
Lemma alike_feasible o cur t t' : lit c t = lit c' t' -> feasible o cur t -> feasible o cur t'.
Proof.
  intros H (F1 & F2 & F3 & F4). split; [|split; [|split]].
  - rewrite <- (xdepth_lit c'), <- H, xdepth_lit. exact F1.
  - now rewrite <- (alike_cost o t t' H).
  - intros op cs' lims j lim k' Hs Hl Hj Hk. destruct (alike_subtree t _ _ Hs H) as (s & S1 & S2). cbn in S2. apply lit_op_inv in S2 as (cs & -> & S2).
    destruct (map_eq_nth _ _ _ _ _ _ S2 Hk) as (k & K1 & K2). rewrite <- (alike_cost o k k' K2). rewrite <- (map_eq_length _ _ _ _ S2) in Hl. eapply F3; eauto.
  - intros op cs' rules nested mx k' p Hs Hl Hr Hk Hp. destruct (alike_subtree t _ _ Hs H) as (s & S1 & S2). cbn in S2. apply lit_op_inv in S2 as (cs & -> & S2).
    destruct (map_eq_in _ _ _ _ _ S2 Hk) as (k & K1 & K2). rewrite <- (map_eq_length _ _ _ _ S2) in Hl. eapply F4; eauto. eapply alike_path; eauto.
Qed.
Lemma alike_value (O : OpSet T) var t t' : lit c t = lit c' t' -> teval O var c t = teval O var c' t'.
Proof. intros H. now rewrite <- !xeval_lit, H. Qed.
Lemma alike_finite (F : FloatOps T) (O : OpSet T) var t : forall t', lit c t = lit c' t' -> tfinite F O var c t = tfinite F O var c' t'.
Proof.
  induction t as [f|i|op cs IH] using tree_ind'; intros [f'|i'|op' cs'] H; try discriminate; cbn [tfinite]; auto.
  apply alike_children in H as [-> H]. rewrite (map_eq_length _ _ _ _ H). f_equal; [|f_equal; f_equal].
  - revert cs' H. induction IH as [|x cs Hx _ IH2]; intros [|y cs'] H; try discriminate; auto. cbn in *. injection H as H1 H2. f_equal; auto.
  - clear IH. revert cs' H. induction cs as [|x cs IH2]; intros [|y cs'] H; try discriminate; auto. cbn in *. injection H as H1 H2. f_equal; auto. now apply alike_value.
Qed.
End Alike.

Lemma lit_table {T} (F : FloatOps T) (e : expr T) t : (forall i, In (Const i) (flatten t) -> i < List.length (consts e)) ->
  lit (EvalTop.const_at F e) t = lit (const_at F (consts e)) t.
Proof. intros H. apply lit_ext. intros i Hi. apply const_ids_in in Hi. apply nth_indep. auto. Qed.

Lemma alike_completes {T} (C : eval_cfg T) d (e e' : expr T) t t' : lit (EvalTop.const_at (ec_F C) e) t = lit (EvalTop.const_at (ec_F C) e') t' ->
  completes C d e t -> completes C d e' t'.
Proof.
  intros H [H1 H2]. split.
  - intros r Hr. specialize (H1 r Hr). unfold finite_at in *. etransitivity; [|exact H1]. symmetry. apply (alike_finite _ _ _ _ _ _ _ H).
  - intros i ->. destruct t as [|j|]; try discriminate. specialize (H2 j eq_refl). cbn in H. injection H as H. congruence.
Qed.
Lemma alike_predictions {T} (C : eval_cfg T) d (e e' : expr T) t t' : lit (EvalTop.const_at (ec_F C) e) t = lit (EvalTop.const_at (ec_F C) e') t' ->
  predictions C d e t = predictions C d e' t'.
Proof. intros H. unfold predictions. apply map_ext. intros r. unfold value_at. apply (alike_value _ _ _ _ _ _ H). Qed.

Lemma denotes_used {T} (F : FloatOps T) (e : expr T) x v : denotes F e x -> In v (xconsts x) -> used e v.
Proof.
  intros (t & Hr & Hc & ->) Hv. unfold represents in Hr. rewrite Hr in Hc.
  assert (G : forall t, In v (xconsts (lit (const_at F (consts e)) t)) -> exists i, In (Const i) (flatten t) /\ const_at F (consts e) i = v).
  { clear. induction t as [f|i|op cs IH] using tree_ind'; cbn [lit xconsts flatten].
    - intros [].
    - intros [<-|[]]. exists i. split; [left|]; auto.
    - rewrite flat_map_concat_map, map_map, <- flat_map_concat_map, in_flat_map. intros (s & Hs & Hv). rewrite Forall_forall in IH. destruct (IH s Hs Hv) as (i & H1 & H2).
      exists i. split; auto. apply in_or_app. left. apply in_flat_map. eauto. }
  destruct (G t Hv) as (i & H1 & H2). exists i. unfold represents. rewrite Hr. split; auto. rewrite <- H2. apply nth_error_nth'. auto.
Qed.

(** ** Draws *)
Lemma usize_inclusive_draw {T} lo hi k (g' : rng T) : lo <= k <= hi -> exists g, draws [] g g' /\ usize_range_inclusive g lo hi = Ok (k, g').
Proof.
  intros H. unfold usize_range_inclusive. destruct (Nat.leb_spec hi lo).
  - exists g'. split; [constructor|]. repeat f_equal; lia.
  - destruct (usize_range_draw 0 (hi - lo + 1) (k - lo) g') as (g & D1 & E1); [lia|]. exists g. split; auto. rewrite E1. cbn [bind]. repeat f_equal; lia.
Qed.

Lemma reject_draw {T} len take fuel : forall k, k <= take -> take <= len -> take <= fuel + k ->
  forall g' : rng T, exists g, draws [] g g' /\ reject_loop fuel len take g (seq 0 k) = Ok (seq 0 take, g').
Proof.
  induction fuel as [|fuel IH]; intros k Hk Hl Hf g'; cbn [reject_loop]; rewrite seq_length.
  - assert (k = take) as -> by lia. rewrite Nat.ltb_irrefl. exists g'. split; [constructor|auto].
  - destruct (Nat.ltb_spec k take) as [Hlt|Hge].
    + destruct (IH (S k) ltac:(lia) Hl ltac:(lia) g') as (g1 & D1 & E1). destruct (usize_range_draw 0 len k g1) as (g & D0 & E0); [lia|].
      exists g. split; [eapply draws_trans0; eauto|]. rewrite E0. cbn [bind].
      assert (Ex : existsb (Nat.eqb k) (seq 0 k) = false).
      { destruct (existsb (Nat.eqb k) (seq 0 k)) eqn:Ex; auto. apply existsb_exists in Ex as (i & Hi & Ei). apply in_seq in Hi. apply Nat.eqb_eq in Ei. lia. }
      rewrite Ex. change ([k]) with (seq k 1). replace (seq k 1) with (seq (0 + k) 1) by reflexivity. rewrite <- seq_app. replace (k + 1) with (S k) by lia. exact E1.
    + assert (k = take) as -> by lia. exists g'. split; [constructor|auto].
Qed.

Lemma partial_draw {T} len is : forall v, List.length v = len -> Forall (fun i => i < len) is ->
  exists v', List.length v' = len /\ forall g' : rng T, exists g, draws [] g g' /\ partial_shuffle is len g v = Ok (v', g').
Proof.
  induction is as [|i is IH]; intros v Hv Hi; cbn [partial_shuffle].
  - exists v. split; auto. intros g'. exists g'. split; [constructor|auto].
  - inversion Hi; subst. assert (Hn : nth_error v i <> None) by (now apply nth_error_Some). destruct (nth_error v i) as [x|] eqn:En; [|congruence].
    destruct (IH (upd (upd v i x) i x)) as (v' & L' & Hd); [now rewrite !upd_length|auto|]. exists v'. split; auto. intros g'. destruct (Hd g') as (g1 & D1 & E1).
    destruct (usize_range_draw i (List.length v) i g1) as (g & D0 & E0); [lia|]. exists g. split; [eapply draws_trans0; eauto|]. rewrite E0. cbn [bind]. unfold swap, index. rewrite En. cbn [expect bind].
    exact E1.
Qed.

Lemma sample_draw_indices {T} fuel len n : Nat.min n len <= fuel -> exists s, forall g' : rng T, exists g, draws [] g g' /\ sample_indices fuel g len n = Ok (s, g').
Proof.
  intros Hf. unfold sample_indices. destruct (_ || _). { exists []. intros g'. exists g'. split; [constructor|auto]. }
  destruct (Nat.eqb_spec (Nat.min n len) len). { exists (seq 0 len). intros g'. exists g'. split; [constructor|auto]. }
  destruct (Nat.leb_spec (Nat.min n len * Nat.min n len) len).
  - exists (seq 0 (Nat.min n len)). intros g'. apply (reject_draw len (Nat.min n len) fuel 0); lia.
  - destruct (partial_draw (T := T) len (seq 0 (Nat.min n len)) (seq 0 len)) as (v & _ & Hv); [apply seq_length|apply Forall_forall; intros i Hi; apply in_seq in Hi; lia|].
    exists (firstn (Nat.min n len) v). intros g'. destruct (Hv g') as (g & D1 & E1). exists g. split; auto. rewrite E1. reflexivity.
Qed.

Lemma weighted_draw {T} (F : FloatOps T) ws u : drawable F ws -> exists i, forall g' : rng T, weighted_index F (next_real u g') ws = Ok (i, g').
Proof.
  intros (Hn & Hf & Ht & Hp). unfold weighted_index. destruct ws as [|w ws]; [contradiction|]. rewrite sum_weights_ok by auto. cbn [bind]. rewrite Ht, Hp. cbn [negb orb].
  eexists. intros g'. unfold rng_real, next_real, shift. cbn [rg_nat rg_real]. destruct g'. reflexivity.
Qed.

Section Reach.
Context {T W : Type} (S0 : search_cfg T W) (full : dataset T) (bl : option T) (B : nat) (L : live S0 full B) (st : stats T) (CH : chances S0 full B st).
Local Notation E := (sc_E S0).
Local Notation C := (eo_C (sc_E S0)).
Local Notation F := (ec_F (eo_C (sc_E S0))).
Local Notation D := (ec_D (eo_C (sc_E S0))).
Local Notation maxsize := (sel_maxsize (eo_sel (sc_E S0))).
Local Notation nf := (ds_n_features full).
Local Notation known := (reg_known (eo_reg (sc_E S0))).
Local Notation snd_ := (sound E nf B bl).
Local Notation wf := (wf_expr E nf B).
Context (Hst : maxsize <= List.length (st_norm st)).

Lemma place_draw n : n <= tournament_selection_n (eo_sel E) -> exists vs k, Forall (uniform F) vs
  /\ forall g', exists g, draws vs g g' /\ sample_tournament_place F g n (tournament_selection_p (eo_sel E)) = Ok (k, g').
Proof.
  intros Hn. unfold sample_tournament_place. destruct (Nat.leb_spec n 1); cbn [orb]. { exists [], 1. split; auto. intros g'. exists g'. split; [constructor|auto]. }
  pose proof (lv_place _ _ _ L) as Hl. cbv zeta in Hl.
  destruct (fgeb F (tournament_selection_p (eo_sel E)) (fone F)). { exists [], 1. split; auto. intros g'. exists g'. split; [constructor|auto]. }
  destruct Hl as [?|[Hp Hd]]; [discriminate|]. rewrite Hp. cbv zeta.
  destruct (fleb F (fsub F (fone F) (tournament_selection_p (eo_sel E))) (fzero F)). { exists [], 1. split; auto. intros g'. exists g'. split; [constructor|auto]. }
  destruct (weighted_draw F _ (fzero F) (Hd n ltac:(lia))) as (i & Hi). exists [fzero F], (i + 1). split; [constructor; auto; apply (ch_zero _ _ _ _ CH)|].
  intros g'. exists (next_real (fzero F) g'). split; [constructor; constructor|]. rewrite Hi. reflexivity.
Qed.

Lemma tournament_draw pop : pop <> [] -> exists vs a, Forall (uniform F) vs /\ In a pop
  /\ forall g', exists g, draws vs g g' /\ tournament E g pop st = Ok (a, g').
Proof.
  intros Hne. assert (Hlen : 0 < List.length pop) by (destruct pop; [contradiction|cbn; lia]). pose proof (lv_tournament _ _ _ L) as Ht. pose proof (ch_fuel _ _ _ _ CH) as Hfu.
  remember (Nat.min (tournament_selection_n (eo_sel E)) (List.length pop)) as n eqn:En0.
  destruct (sample_draw_indices (T := T) (eo_fuel E) (List.length pop) n) as (s & Hs); [lia|].
  assert (Hsp : Forall (fun i => i < List.length pop) s /\ List.length s = n).
  { destruct (Hs (es_rng (mkEvoSt (some_rng (fzero F)) (mkEvalr [] (mkMat [] 0 0)) 0 0))) as (g & _ & Eg). destruct (C28_sample (eo_fuel E) g (List.length pop) n) as [_ Hsp]. destruct (Hsp _ _ Eg) as (_ & H1 & H2). split; auto. lia. }
  destruct Hsp as [Hlt Hl].
  destruct (scored_spec F (oc_to (eo_opt E)) (eo_exp E) st (eo_sel E) Hst pop s Hlt) as (scored & Esc & Hsnd & Hsc).
  assert (HL : List.length scored = List.length s) by (rewrite <- Hsnd, map_length; auto).
  destruct (place_draw (List.length scored)) as (vs & k & Hvs & Hk); [lia|].
  remember (sort_by (fun a b => cmp_or_greater F (fst a) (fst b)) scored) as srt eqn:Esrt.
  assert (HP : Permutation.Permutation scored srt) by (subst srt; apply sort_by_perm). pose proof (Permutation.Permutation_length HP).
  destruct (nth_error srt (Nat.min (k - 1) (List.length scored - 1))) as [[a c]|] eqn:En; [|apply nth_error_None in En; lia].
  rewrite Forall_forall in Hsc. destruct (Hsc (a, c)) as (m & Hm & _). { rewrite HP. eapply nth_error_In; eauto. }
  cbn [snd] in Hm. exists vs, m. split; auto. split; [eapply nth_error_In; eauto|]. intros g'. destruct (Hk g') as (g1 & D1 & E1). destruct (Hs g1) as (g & D0 & E0).
  exists g. split; [eapply draws_trans0; eauto|]. unfold tournament, best_of_sample. rewrite <- En0, E0. cbn [bind]. rewrite Esc. cbn [bind]. rewrite E1. cbn [bind].
  destruct (Nat.ltb_spec 0 (List.length scored)); [|lia]. cbn [assert_ bind]. rewrite <- Esrt. unfold index at 1. rewrite En. cbn [expect bind]. unfold index. rewrite Hm. reflexivity.
Qed.

Lemma next_generation_draw cur d e0 t0 loss : cur <= maxsize -> usable full d -> admissible E d bl cur e0 t0 loss ->
  forall m ev id birth temp, snd_ m -> ready (ds_n_rows full) ev ->
  exists vs baby ev' k, Forall (toward F e0) vs /\ is_found E nf B bl e0 t0 loss baby /\ within E cur (m_expr baby) /\ ready (ds_n_rows full) ev'
    /\ m_id baby = id /\ m_birth baby = birth
    /\ forall g', exists g, draws vs g g' /\ next_generation E (mkEvoSt g ev id birth) m d bl temp cur st = Ok (baby, true, k, mkEvoSt g' ev' (id + 1) (birth + 1)).
Proof.
  intros Hcur Hd Ha m ev id birth temp Hm Hr. pose proof Hd as (Hd1 & Hrw & Hfe). destruct Ha as [A1 A2 A3 A4 A5 A6 A7]. rewrite Hfe in A2.
  pose proof (evo0 S0 full B L cur Hcur) as He0. pose proof (reg_known_setting _ _ _ _ (ok_setting _ _ _ _ He0)) as Hset. pose proof (ok_small _ _ _ _ He0) as Hsm.
  pose proof (ok_cur _ _ _ _ He0) as HcB. pose proof (ok_widths _ _ _ _ He0) as Wd. pose proof (w_umax _ _ _ Wd) as Hum.
  pose proof (feasible_nodes E nf B cur He0 e0 t0 A1 A3) as Hn0.
  remember (lit (const_at F (consts e0)) t0) as x eqn:Ex.
  assert (Hx : denotes F e0 x /\ x_ok D nf known x).
  { rewrite (tree_ok_split D nf (List.length (consts e0)) known (const_at F (consts e0))) in A2. destruct A2 as [X1 X2]. rewrite <- Ex in X1. split; auto. exists t0. unfold represents in *. rewrite A1. auto. }
  destruct Hx as [Hde Hxo]. assert (Hsz : xsize x = List.length (nodes e0)) by (symmetry; eapply denotes_size; eauto).
  destruct (C70_random_expr T F D nf known (eo_reg E) x Hset Hxo ltac:(lia)) as (vs1 & e1 & Hp1 & De1 & Hdr1).
  assert (Hc1 : List.length (consts e1) <= u16_max).
  { (* the table of a new random formula has at most as many entries as the formula has nodes *)
    destruct (Hdr1 (some_rng (fzero F))) as (gg & _ & Eg). destruct (C18_random_expr T F D nf known (eo_reg E) (xsize x) gg Hset) as (e2 & g4 & x2 & E2 & _ & _ & Z2 & Z3 & _); [pose proof (xsize_pos x); lia|].
    rewrite Eg in E2. injection E2 as <- _. lia. }
  destruct (compress_denotes F e1 x De1 Hc1) as (e2 & ch & Ec & De2 & _ & _ & Hc2).
  pose proof (denotes_size _ _ _ De2) as Hn2. pose proof De2 as (t2 & R2 & I2 & X2).
  assert (T2 : tree_ok D nf (List.length (consts e2)) known t2).
  { apply (tree_ok_split D nf (List.length (consts e2)) known (const_at F (consts e2))). rewrite <- X2. split; auto. unfold represents in R2. now rewrite <- R2. }
  assert (Hlit : lit (const_at F (consts e0)) t0 = lit (const_at F (consts e2)) t2) by congruence.
  assert (Hlit' : lit (EvalTop.const_at F e0) t0 = lit (EvalTop.const_at F e2) t2).
  { rewrite !lit_table; auto.
    - unfold represents in R2. now rewrite <- R2.
    - intros i Hi. destruct Hde as (t' & R' & I' & _). apply I'. unfold represents in A1. now rewrite A1. }
  assert (Hwf2 : wf e2) by (exists t2; split; auto; split; auto; lia).
  assert (F2 : feasible (ec_size C) cur t2) by (eapply alike_feasible; eauto).
  assert (Hcost : cost (ec_size C) t2 = cost (ec_size C) t0) by (symmetry; eapply alike_cost; eauto).
  destruct (check_ok S0 full B L e2 cur) as [b Eb]; [exists t2; auto|auto|].
  pose proof (proj2 (check_spec E nf B cur He0 e2 t2 b R2 T2 Eb) F2) as ->.
  destruct (from_expr_ok S0 full B L id (Some (m_id m)) birth e2 Hwf2) as (b1 & Efe). pose proof (from_expr_frame _ _ _ _ _ _ _ Efe) as (J1 & J2 & J3 & J4 & J5).
  assert (Hg1 : good E nf B b1) by (split; [rewrite J4; auto|unfold plan_fresh; rewrite J4; exact J5]).
  destruct (good_tree S0 full B L d b1 Hd Hg1) as (t3 & R3 & Ok3 & Fit3 & Sz3 & _ & Pl3).
  assert (t3 = t2) as -> by (rewrite J4 in R3; unfold represents in *; apply flatten_inj; congruence).
  assert (Hrows : 1 <= ds_n_rows d) by (destruct (lv_data _ _ _ L) as (_ & Hrows & _); lia).
  assert (Hcm : completes C d (m_expr b1) t2) by (rewrite J4; eapply alike_completes; [exact Hlit'|exact A4]).
  assert (Hls : lf_loss (ec_loss C) (predictions C d (m_expr b1) t2) (ds_y d) (ds_weights d) = Ok loss) by (rewrite J4, <- (alike_predictions C d e0 e2 t0 t2 Hlit'); exact A5).
  destruct (C34_evaluate T C b1 d bl ev t2 loss Hd1 Ok3 Fit3 Hrows Pl3) as (b2 & ev2 & ok & Eev & Hok & K1 & K2 & K3 & K4 & K5 & K6 & K7 & _ & _); auto.
  { unfold ev_ready. rewrite Hrw. exact Hr. }
  assert (ok = true) as -> by tauto. destruct (K7 eq_refl) as [K8 K9].
  assert (Hcx : m_complexity b2 = cost (ec_size C) t0). { rewrite K6, Hcost. destruct F2 as (_ & F2 & _). rewrite Hcost in F2. lia. }
  pose proof (evaluate_ready C _ _ _ _ _ _ _ _ Eev Hr) as Hr2.
  pose proof (evaluate_sound E nf B cur bl He0 b1 d ev b2 ev2 true) as Hso. destruct Hso as (Hso & _); [rewrite J4; auto|unfold plan_fresh; rewrite J4; exact J5|exact Eev|].
  destruct (ch_randomize _ _ _ _ CH (m_expr m) (m_complexity m) cur (so_expr _ _ _ _ _ Hm) Hcur) as (u & Hu & Esm).
  match type of Hr2 with _ => idtac end.
  destruct (acceptance_ok S0 st temp (to_w (eo_opt E) (m_cost m) (finf F)) (to_w (eo_opt E) (m_cost b2) (finf F)) (m_complexity m) (m_complexity b2)) as (pr & Epr).
  pose proof (ch_accept _ _ _ _ CH _ _ _ _ _ _ Epr) as Hpr.
  exists (u :: vs1 ++ [fzero F]), b2, ev2, 1. split.
  { constructor; [left; auto|]. apply Forall_app. split; [|constructor; [left; apply (ch_zero _ _ _ _ CH)|constructor]].
    apply Forall_forall. intros v Hv. right. eapply denotes_used; [exact Hde|]. eapply Permutation_in; eauto. }
  split. { split; [exists x; split; auto; rewrite K4, J4; auto|]. split; auto. split; auto. split; auto. rewrite K9, Hcx. reflexivity. }
  split. { exists t2. rewrite K4, J4. auto. }
  split; auto. split; [congruence|]. split; [congruence|]. intros g'.
  destruct (Hdr1 (next_real (fzero F) g')) as (g1 & D1 & E1).
  destruct (usize_inclusive_draw 1 (Nat.min (Nat.max cur 1) (Nat.max maxsize 1)) (xsize x) g1) as (g0 & D0 & E0); [pose proof (xsize_pos x); lia|].
  exists (next_real u g0). split.
  { constructor. eapply draws_trans0; [exact D0|]. eapply draws_trans; [exact D1|]. constructor. constructor. }
  unfold next_generation. cbn [es_rng es_ev es_id es_birth]. cbv zeta. rewrite Hfe, Esm. cbn [bind]. cbn [attempts]. unfold apply. rewrite Hfe, E0. cbn [bind]. rewrite E1. cbn [bind negb].
  rewrite Ec. cbn [bind]. rewrite Eb. cbn [bind]. rewrite Efe. cbn [bind]. rewrite Eev. cbn [bind negb orb].
  assert (Hfc : ffinite F (to_w (eo_opt E) (m_cost b2) (finf F)) = true) by (rewrite K9, Hcx; exact A7). rewrite Hfc. cbn [negb]. rewrite Epr. cbn [bind].
  unfold rng_real at 1, next_real at 1, shift. cbn [rg_nat rg_real]. unfold next_real at 1. cbn [rg_nat rg_real]. rewrite Hpr. destruct g'. reflexivity.
Qed.

Section Target.
Context (cur : nat) (d : dataset T) (e0 : expr T) (t0 : tree) (loss : T) (Hcur : cur <= maxsize) (Hd : usable full d) (Ha : admissible E d bl cur e0 t0 loss).
Local Notation found pop := (exists m, In m pop /\ is_found E nf B bl e0 t0 loss m /\ within E cur (m_expr m)).

Lemma evol_step_draw pop ev id birth temp : Forall snd_ pop -> 2 <= List.length pop -> ready (ds_n_rows full) ev ->
  exists vs pop' ev' k, Forall (toward F e0) vs /\ found pop' /\ Forall snd_ pop' /\ List.length pop' = List.length pop /\ ready (ds_n_rows full) ev'
    /\ forall g', exists g, draws vs g g' /\ evol_step E pop (mkEvoSt g ev id birth) d bl temp cur st = Ok (pop', mkEvoSt g' ev' (id + 1) (birth + 1), k).
Proof.
  intros Hp Hl Hr. assert (Hne : pop <> []) by (intros ->; cbn in Hl; lia). destruct (ch_mutation _ _ _ _ CH) as (u & Hu & Hcp).
  destruct (tournament_draw pop Hne) as (vs1 & a & Hv1 & Hin & Ht). pose proof Hp as Hp'. rewrite Forall_forall in Hp'.
  destruct (next_generation_draw cur d e0 t0 loss Hcur Hd Ha a ev id birth temp (Hp' _ Hin) Hr) as (vs2 & baby & ev' & k & Hv2 & Hb & Hw & Hr' & _ & _ & Hn).
  destruct (C26_replace_oldest T pop baby Hne) as (i & pop' & Er & Hi & _ & Hl' & Hni & Hno).
  exists (u :: vs1 ++ vs2), pop', ev', k. split.
  { constructor; [left; auto|]. apply Forall_app. split; auto. eapply Forall_impl; [|exact Hv1]. intros v Hv. left. exact Hv. }
  split. { exists baby. split; [eapply nth_error_In; eauto|]. split; auto. }
  split. { apply Forall_forall. intros m Hm. apply In_nth_error in Hm as (j & Hj). destruct (Nat.eq_dec j i) as [->|Hji].
    - rewrite Hni in Hj. injection Hj as <-. apply Hb.
    - rewrite (Hno j Hji) in Hj. apply Hp'. eapply nth_error_In; eauto. }
  split; auto. split; auto. intros g'. destruct (Hn g') as (g1 & D1 & E1). destruct (Ht g1) as (g0 & D0 & E0). exists (next_real u g0). split.
  { constructor. eapply draws_trans; eauto. }
  unfold evol_step. cbn [es_rng es_ev es_id es_birth]. replace (rng_real (next_real u g0)) with (u, g0) by (destruct g0; reflexivity). rewrite Hcp, E0. cbn [bind]. rewrite E1. cbn [bind negb andb].
  rewrite Er. reflexivity.
Qed.

Lemma evol_steps_draw temp : forall n pop ev id birth k0, Forall snd_ pop -> 2 <= List.length pop -> ready (ds_n_rows full) ev ->
  exists vs pop' ev' k, Forall (toward F e0) vs /\ (n = 0 \/ found pop') /\ Forall snd_ pop' /\ List.length pop' = List.length pop /\ ready (ds_n_rows full) ev'
    /\ forall g', exists g, draws vs g g' /\ evol_steps E n pop (mkEvoSt g ev id birth) d bl temp cur st k0 = Ok (pop', mkEvoSt g' ev' (id + n) (birth + n), k).
Proof.
  induction n as [|n IH]; intros pop ev id birth k0 Hp Hl Hr.
  - exists [], pop, ev, k0. split; auto. split; auto. split; auto. split; auto. split; auto. intros g'. exists g'. split; [constructor|]. cbn [evol_steps]. now rewrite !Nat.add_0_r.
  - destruct (evol_step_draw pop ev id birth temp Hp Hl Hr) as (vs1 & p1 & ev1 & k1 & V1 & F1 & S1 & L1 & R1 & D1).
    destruct (IH p1 ev1 (id + 1) (birth + 1) (k0 + k1) S1 ltac:(lia) R1) as (vs2 & p2 & ev2 & k2 & V2 & F2 & S2 & L2 & R2 & D2).
    exists (vs1 ++ vs2), p2, ev2, k2. split; [apply Forall_app; auto|]. split.
    { right. destruct F2 as [->|]; auto. destruct (D2 (some_rng (fzero F))) as (g & _ & Eg). cbn [evol_steps] in Eg. injection Eg as <- _ _. auto. }
    split; auto. split; [lia|]. split; auto. intros g'. destruct (D2 g') as (g1 & G1 & E1). destruct (D1 g1) as (g0 & G0 & E0). exists g0. split; [eapply draws_trans; eauto|].
    cbn [evol_steps]. rewrite E0. cbn [bind]. rewrite E1. replace (id + 1 + n) with (id + S n) by lia. replace (birth + 1 + n) with (birth + S n) by lia. reflexivity.
Qed.

Lemma sr_cycles_draw nn : forall idx pop ev id birth best k0, Forall snd_ pop -> 2 <= List.length pop -> ready (ds_n_rows full) ev ->
  exists vs pop' ev' best' k id' birth', Forall (toward F e0) vs /\ (idx = [] \/ found pop') /\ Forall snd_ pop' /\ List.length pop' = List.length pop /\ ready (ds_n_rows full) ev'
    /\ forall g', exists g, draws vs g g' /\ sr_cycles E idx nn pop (mkEvoSt g ev id birth) best d bl cur st k0 = Ok (pop', mkEvoSt g' ev' id' birth', best', k).
Proof.
  induction idx as [|i idx IH]; intros pop ev id birth best k0 Hp Hl Hr.
  - exists [], pop, ev, best, k0, id, birth. split; auto. split; auto. split; auto. split; auto. split; auto. intros g'. exists g'. split; [constructor|]. reflexivity.
  - pose proof (lv_tournament _ _ _ L) as Hto.
    assert (Hn : n_evol_cycles E (List.length pop) (tournament_selection_n (eo_sel E)) <> 0).
    { unfold n_evol_cycles. destruct (Nat.eqb_spec (tournament_selection_n (eo_sel E)) 0); [lia|]. intros H0. apply Nat.div_small_iff in H0; lia. }
    remember (n_evol_cycles E (List.length pop) (tournament_selection_n (eo_sel E))) as n eqn:En.
    destruct (evol_steps_draw (temperature_at E i nn) n pop ev id birth 0 Hp Hl Hr) as (vs1 & p1 & ev1 & k1 & V1 & F1 & S1 & L1 & R1 & D1).
    destruct (update_total S0 full bl B L cur Hcur p1 best S1) as [b1 Eb].
    destruct (IH p1 ev1 (id + n) (birth + n) b1 (k0 + k1) S1 ltac:(lia) R1) as (vs2 & p2 & ev2 & b2 & k2 & id2 & birth2 & V2 & F2 & S2 & L2 & R2 & D2).
    exists (vs1 ++ vs2), p2, ev2, b2, k2, id2, birth2. split; [apply Forall_app; auto|]. split.
    { right. destruct F2 as [->|]; auto. destruct (D2 (some_rng (fzero F))) as (g & _ & Eg). cbn [sr_cycles] in Eg. injection Eg as <- _ _ _ _. destruct F1; [contradiction|auto]. }
    split; auto. split; [lia|]. split; auto. intros g'. destruct (D2 g') as (g1 & G1 & E1). destruct (D1 g1) as (g0 & G0 & E0). exists g0. split; [eapply draws_trans; eauto|].
    cbn [sr_cycles]. unfold reg_evol_cycle. rewrite <- En, E0. cbn [bind]. rewrite Eb. cbn [bind]. exact E1.
Qed.

Lemma s_r_cycle_draw pop ev id birth : Forall snd_ pop -> 2 <= List.length pop -> ready (ds_n_rows full) ev ->
  exists vs pop' ev' best k id' birth', Forall (toward F e0) vs /\ found pop' /\ Forall snd_ pop' /\ List.length pop' = List.length pop /\ ready (ds_n_rows full) ev'
    /\ forall g', exists g, draws vs g g' /\ s_r_cycle E pop (mkEvoSt g ev id birth) d bl cur st = Ok (pop', mkEvoSt g' ev' id' birth', best, k).
Proof.
  intros Hp Hl Hr. unfold s_r_cycle. cbv zeta. destruct (update_total S0 full bl B L cur Hcur pop (hof_new maxsize) Hp) as [h Eh]. rewrite Eh. cbn [bind].
  match goal with |- context [sr_cycles E (seq 0 ?n) ?n] => remember n as nn eqn:En end.
  destruct (sr_cycles_draw nn (seq 0 nn) pop ev id birth h 0 Hp Hl Hr) as (vs & p' & ev' & b & k & id' & birth' & V & Fd & S1 & L1 & R1 & D1).
  exists vs, p', ev', b, k, id', birth'. split; auto. split; [|auto]. destruct Fd as [H0|]; auto. apply (f_equal (@List.length nat)) in H0. rewrite seq_length in H0. cbn in H0. lia.
Qed.
End Target.
End Reach.

(** ** Halls of fame *)
Section Hall.
Context {T : Type} (F : FloatOps T) (O : OrderLaws F) (umax D : nat) (o : size_opts) (stale : list nat).
Local Notation cons_ := (consider F umax D o stale).

Lemma consider_cases h m cur h' : cons_ h m cur = Ok h' -> h' = h \/ (m_complexity m < List.length h /\ h' = upd h (m_complexity m) (Some m)
  /\ forall old, stored h (m_complexity m) old -> fltb F (m_cost m) (m_cost old) = true).
Proof.
  unfold consider, stored. intros H. apply bind_ok in H as (b & _ & H). destruct (negb b); [injection H as <-; auto|]. destruct (m_complexity m =? 0); [injection H as <-; auto|].
  destruct (Nat.leb_spec (List.length h) (m_complexity m)) as [|Hlt]; [injection H as <-; auto|]. apply bind_ok in H as (slot & Hs & H). unfold index in Hs.
  destruct (nth_error h (m_complexity m)) as [s|] eqn:En; [|discriminate]. injection Hs as <-. unfold set_index in H. destruct (Nat.ltb_spec (m_complexity m) (List.length h)); [|lia].
  destruct s as [best|].
  - rewrite is_less_cmp in H. destruct (fltb F (m_cost m) (m_cost best)) eqn:El; injection H as <-; auto. right. split; auto. split; auto. intros old [= <-]. exact El.
  - injection H as <-. right. split; auto. split; auto. intros old. discriminate.
Qed.
Lemma lt_le a b c : fltb F a b = true -> (fltb F b c = true \/ feqb F b c = true) -> fltb F a c = true \/ feqb F a c = true.
Proof. intros H [H'|H']; left; [eapply (ol_trans _ O); eauto|]. now rewrite <- (ol_eq_r _ O _ _ _ H'). Qed.
Lemma as_good_consider h c v m cur h' : as_good F h c v -> cons_ h m cur = Ok h' -> as_good F h' c v.
Proof.
  intros (x & Hx & Hc & Hv) H. apply consider_cases in H as [->|(Hlt & -> & Hold)]; [exists x; auto|]. unfold stored in *. destruct (Nat.eq_dec (m_complexity m) c) as [Ec|Ec].
  - exists m. split; [|split; auto]. { unfold stored. rewrite Ec in *. apply nth_error_upd_same. exact Hlt. } subst c. rewrite Ec in *. eapply lt_le; eauto.
  - exists x. split; auto. unfold stored. rewrite nth_error_upd_other; auto.
Qed.
Lemma as_good_update : forall ms h c v cur h', as_good F h c v -> update_from_members F umax D o stale h ms cur = Ok h' -> as_good F h' c v.
Proof.
  unfold update_from_members. induction ms as [|m ms IH]; intros h c v cur h' Hg H; cbn [foldM] in H; [injection H as <-; auto|]. apply bind_ok in H as (h1 & H1 & H).
  eapply IH; [|exact H]. eapply as_good_consider; eauto.
Qed.

(** Every stored cost is a number. *)
Definition clean (h : hof T) : Prop := forall c m, stored h c m -> num F (m_cost m).
Lemma clean_consider h m cur h' : clean h -> num F (m_cost m) -> cons_ h m cur = Ok h' -> clean h'.
Proof.
  intros Hc Hm H. apply consider_cases in H as [->|(Hlt & -> & _)]; auto. intros c x Hx. unfold stored in Hx. destruct (Nat.eq_dec (m_complexity m) c) as [<-|Ec].
  - rewrite nth_error_upd_same in Hx by auto. injection Hx as <-. auto.
  - rewrite nth_error_upd_other in Hx by auto. eapply Hc; eauto.
Qed.
Lemma consider_good h m cur h' v : clean h -> num F (m_cost m) -> check_constraints umax D stale o (m_expr m) cur = Ok true -> 1 <= m_complexity m < List.length h ->
  (forall c x, stored h c x -> m_complexity x = c) -> (fltb F (m_cost m) v = true \/ feqb F (m_cost m) v = true) -> cons_ h m cur = Ok h' -> as_good F h' (m_complexity m) v.
Proof.
  intros Hcl Hm Hk Hr Hcx Hv H. unfold consider in H. rewrite Hk in H. cbn [bind negb] in H. destruct (Nat.eqb_spec (m_complexity m) 0); [lia|].
  destruct (Nat.leb_spec (List.length h) (m_complexity m)); [lia|]. unfold index in H. destruct (nth_error h (m_complexity m)) as [s|] eqn:En; [|discriminate]. cbn [expect bind] in H.
  unfold set_index in H. destruct (Nat.ltb_spec (m_complexity m) (List.length h)); [|lia].
  assert (Hset : Ok (upd h (m_complexity m) (Some m)) = Ok h' -> as_good F h' (m_complexity m) v).
  { intros [= <-]. exists m. split; auto. apply nth_error_upd_same. auto. }
  destruct s as [best|]; auto. rewrite is_less_cmp in H. destruct (fltb F (m_cost m) (m_cost best)) eqn:El; auto. injection H as <-. exists best. split; auto. split; [eauto|].
  destruct (ol_total _ O (m_cost m) (m_cost best) Hm (Hcl _ _ En)) as [?|[He|Hl]]; [congruence| |].
  - rewrite (ol_eq_sym _ O) in He. destruct Hv as [Hv|Hv]; [left; now rewrite (ol_eq_l _ O _ _ _ He)|right; eapply (ol_eq_trans _ O); eauto].
  - eapply lt_le; eauto.
Qed.
Lemma labels_consider h m cur h' : (forall c x, stored h c x -> m_complexity x = c) -> cons_ h m cur = Ok h' -> forall c x, stored h' c x -> m_complexity x = c.
Proof.
  intros Hl H. apply consider_cases in H as [->|(Hlt & -> & _)]; auto. intros c x Hx. unfold stored in Hx. destruct (Nat.eq_dec (m_complexity m) c) as [<-|Ec].
  - rewrite nth_error_upd_same in Hx by auto. now injection Hx as <-.
  - rewrite nth_error_upd_other in Hx by auto. eapply Hl; eauto.
Qed.
Lemma length_consider h m cur h' : cons_ h m cur = Ok h' -> List.length h' = List.length h.
Proof. intros H. apply consider_cases in H as [->|(_ & -> & _)]; auto. apply upd_length. Qed.

Lemma update_good : forall ms h cur h' v x, clean h -> (forall c m, stored h c m -> m_complexity m = c) -> Forall (fun m => num F (m_cost m)) ms -> In x ms ->
  check_constraints umax D stale o (m_expr x) cur = Ok true -> 1 <= m_complexity x < List.length h -> (fltb F (m_cost x) v = true \/ feqb F (m_cost x) v = true) ->
  update_from_members F umax D o stale h ms cur = Ok h' -> as_good F h' (m_complexity x) v.
Proof.
  induction ms as [|m ms IH]; intros h cur h' v x Hcl Hlb Hn Hin Hk Hr Hv H; [destruct Hin|]. unfold update_from_members in H. cbn [foldM] in H. apply bind_ok in H as (h1 & H1 & H).
  inversion Hn; subst. destruct Hin as [->|Hin].
  - eapply as_good_update; [|exact H]. eapply consider_good; eauto.
  - eapply IH; [| | |exact Hin|exact Hk| |exact Hv|exact H]; auto.
    + eapply clean_consider; eauto.
    + eapply labels_consider; eauto.
    + now rewrite (length_consider _ _ _ _ H1).
Qed.
Lemma as_good_offer_all : forall hist h c v h', as_good F h c v -> offer_all F umax D o stale h hist = Ok h' -> as_good F h' c v.
Proof.
  unfold offer_all. induction hist as [|p hist IH]; intros h c v h' Hg H; cbn [foldM] in H; [injection H as <-; auto|]. apply bind_ok in H as (h1 & H1 & H).
  eapply IH; [|exact H]. eapply as_good_consider; eauto.
Qed.
End Hall.

(** ** Theorems *)

(** One step of the evolution: whatever the population, its evaluator and counters and the temperature, there are draws after which the step has put the formula into the
    population - the same draws whatever the generator gives later. *)
Theorem C72_step : forall (T W : Type) (S0 : search_cfg T W) full bl B st cur d e0 t0 loss pop ev id birth temp,
  let E := sc_E S0 in let F := ec_F (eo_C E) in let nf := ds_n_features full in
  live S0 full B -> chances S0 full B st -> sel_maxsize (eo_sel E) <= List.length (st_norm st) -> cur <= sel_maxsize (eo_sel E) -> usable full d ->
  admissible E d bl cur e0 t0 loss ->
  Forall (sound E nf B bl) pop -> 2 <= List.length pop -> ready (ds_n_rows full) ev ->
  exists vs pop' ev' k, Forall (toward F e0) vs
    /\ (exists m, In m pop' /\ is_found E nf B bl e0 t0 loss m) /\ Forall (sound E nf B bl) pop' /\ List.length pop' = List.length pop
    /\ forall g', exists g, draws vs g g' /\ evol_step E pop (mkEvoSt g ev id birth) d bl temp cur st = Ok (pop', mkEvoSt g' ev' (id + 1) (birth + 1), k).
Proof.
  intros T W S0 full bl B st cur d e0 t0 loss pop ev id birth temp E F nf L CH Hst Hcur Hd Ha Hp Hl Hr.
  destruct (evol_step_draw S0 full bl B L st CH Hst cur d e0 t0 loss Hcur Hd Ha pop ev id birth temp Hp Hl Hr) as (vs & p' & ev' & k & V & (m & M1 & M2 & _) & S1 & L1 & _ & D1).
  exists vs, p', ev', k. split; auto. split; [exists m; auto|]. auto.
Qed.

(** The best members an iteration has seen, when the formula is among them. *)
Lemma iteration_best {T} (E : evo_cfg T) nf B bl cur d e0 t0 loss pop s st pop' s' best k m : OrderLaws (ec_F (eo_C E)) -> evo_ok E nf B cur -> Forall (sound E nf B bl) pop ->
  ds_n_features d = nf -> s_r_cycle E pop s d bl cur st = Ok (pop', s', best, k) -> cur <= sel_maxsize (eo_sel E) ->
  In m pop' -> is_found E nf B bl e0 t0 loss m -> within E cur (m_expr m) ->
  exists x, stored best (cost (ec_size (eo_C E)) t0) x /\ m_complexity x = cost (ec_size (eo_C E)) t0
    /\ fltb (ec_F (eo_C E)) (cost_of E loss (cost (ec_size (eo_C E)) t0) bl) (m_cost x) = false /\ sound E nf B bl x /\ within E cur (m_expr x).
Proof.
  intros O Hev Hp Hnf Hc Hcm Hm (_ & M2 & _ & M4 & M5) Hw.
  destruct (C42_iteration _ _ _ _ _ _ _ _ _ _ _ _ _ _ Hev Hp Hnf Hc) as (_ & _ & Hlen & Hst & hist & Eo & Hf & Hin).
  pose proof (ok_widths _ _ _ _ Hev) as Wd. pose proof (w_umax _ _ _ Wd). pose proof (ok_cur _ _ _ _ Hev). pose proof (ok_small _ _ _ _ Hev).
  destruct (C24_hall_of_fame T (ec_F (eo_C E)) (ec_umax (eo_C E)) (ec_D (eo_C E)) nf (reg_known (eo_reg E)) (ec_size (eo_C E)) (eo_stale E) (sel_maxsize (eo_sel E)) hist O Wd) as (h & Eh & _ & _ & Hh).
  { eapply Forall_impl; [|exact Hf]. intros [x c] [X1 X2]. cbn [fst snd] in *. subst c. split; [|lia]. apply (expr_of_wf E nf B _ (so_expr _ _ _ _ _ X1)). }
  rewrite Eo in Eh. injection Eh as <-.
  assert (Hrange : 1 <= m_complexity m <= cur).
  { destruct M5 as [Hwf _ Hcx _]. destruct Hw as (t & Hr & _ & Hcost & _). rewrite cost_nodes in Hcost. unfold represents in Hr. rewrite Hcx, Hr.
    pose proof (sum_ge_length (node_cost (ec_size (eo_C E))) (flatten t) (ok_pos _ _ _ _ Hev)). assert (1 <= List.length (flatten t)) by (destruct t; cbn; rewrite ?app_length; cbn; lia). lia. }
  rewrite <- M2. destruct (Hh (m_complexity m)) as (slot & Hs & Hsl); [lia|].
  assert (Hcomp : competes (ec_size (eo_C E)) (m_complexity m) (m, cur)) by (split; auto; exact Hw).
  destruct slot as [x|]; [|exfalso; eapply Hsl; [apply Hin; right; exact Hm|exact Hcomp]]. destruct Hsl as (bf & cm & af & _ & (X1 & _) & X2 & _).
  specialize (X2 _ (Hin m (or_intror Hm)) Hcomp). cbn [fst] in X2. exists x. split; auto. destruct (Hst _ _ Hs) as (Y1 & Y2 & Y3). split; auto. split; [|auto]. rewrite M2, <- M4. exact X2.
Qed.

(** One iteration: there are draws after which the population holds the formula, and the best members reported by the iteration include, at the formula's complexity, one
    that is not dearer. *)
Theorem C72_iteration : forall (T W : Type) (S0 : search_cfg T W) full bl B st cur d e0 t0 loss pop ev id birth,
  let E := sc_E S0 in let F := ec_F (eo_C E) in let nf := ds_n_features full in let c0 := cost (ec_size (eo_C E)) t0 in
  live S0 full B -> OrderLaws F -> chances S0 full B st -> sel_maxsize (eo_sel E) <= List.length (st_norm st) -> cur <= sel_maxsize (eo_sel E) -> usable full d ->
  admissible E d bl cur e0 t0 loss ->
  Forall (sound E nf B bl) pop -> 2 <= List.length pop -> ready (ds_n_rows full) ev ->
  exists vs pop' ev' best k id' birth', Forall (toward F e0) vs
    /\ (exists m, In m pop' /\ is_found E nf B bl e0 t0 loss m) /\ List.length pop' = List.length pop
    /\ (exists x, stored best c0 x /\ m_complexity x = c0 /\ fltb F (cost_of E loss c0 bl) (m_cost x) = false)
    /\ forall g', exists g, draws vs g g' /\ s_r_cycle E pop (mkEvoSt g ev id birth) d bl cur st = Ok (pop', mkEvoSt g' ev' id' birth', best, k).
Proof.
  intros T W S0 full bl B st cur d e0 t0 loss pop ev id birth E F nf c0 L O CH Hst Hcur Hd Ha Hp Hl Hr.
  destruct (s_r_cycle_draw S0 full bl B L st CH Hst cur d e0 t0 loss Hcur Hd Ha pop ev id birth Hp Hl Hr) as (vs & p' & ev' & best & k & id' & birth' & V & (m & M1 & M2 & M3) & S1 & L1 & _ & D1).
  exists vs, p', ev', best, k, id', birth'. split; auto. split; [exists m; auto|]. split; auto. split; [|auto].
  destruct (D1 (some_rng (fzero F))) as (g & _ & Eg).
  destruct (iteration_best E nf B bl cur d e0 t0 loss _ _ _ _ _ _ _ m O (evo0 S0 full B L cur Hcur) Hp (proj2 (proj2 Hd)) Eg Hcur M1 M2 M3) as (x & X1 & X2 & X3 & _). exists x. auto.
Qed.

Section Whole.
Context {T W : Type} (S0 : search_cfg T W) (full : dataset T) (bl : option T) (B : nat) (L : live S0 full B).
Local Notation E := (sc_E S0).
Local Notation C := (eo_C (sc_E S0)).
Local Notation F := (ec_F (eo_C (sc_E S0))).
Local Notation maxsize := (sel_maxsize (eo_sel (sc_E S0))).
Local Notation nf := (ds_n_features full).
Local Notation Pn := (fun m => sound E nf B bl m /\ numeric F (m_loss m)).
Context (O : OrderLaws F) (Hcosts : forall loss k, numeric F loss -> k <= maxsize -> num F (cost_of E loss k bl)) (Hfull : sc_batching S0 = false)
  (CH : forall st, chances S0 full B st).

Lemma priced_num m : Pn m -> m_complexity m <= maxsize -> num F (m_cost m).
Proof. intros [[_ _ _ Hc] Hn] Hm. destruct Hc as [->|[_ ->]]; [|apply (ol_inf_num _ O)]. auto. Qed.

Lemma apply_hall st r st' : apply_task_result S0 st r = Ok st' -> exists h1, update_hof E (ss_hall st) (hof_members (tr_seen r)) (tr_cur r) = Ok h1
  /\ forall c v, as_good F h1 c v -> as_good F (ss_hall st') c v.
Proof.
  unfold apply_task_result. cbv zeta. intros H. apply bind_ok in H as (subs & _ & H). apply bind_ok in H as (? & _ & H). apply bind_ok in H as (h1 & H1 & H). apply bind_ok in H as ([h2 b2] & H2 & H).
  apply bind_ok in H as (ps1 & _ & H). apply bind_ok in H as (ps2 & _ & H). apply bind_ok in H as (pops & _ & H). injection H as <-. cbn [ss_hall]. exists h1. split; auto. intros c v Hg.
  clear H1. revert H2 Hg. generalize (ss_best st). generalize h1. induction (ps_pop (tr_pop r)) as [|m ms IH]; intros h b H2 Hg; cbn [offer_best] in H2; [injection H2 as <- _; auto|].
  apply bind_ok in H2 as (h3 & H3 & H2). apply bind_ok in H2 as (ok & _ & H2). eapply IH; [exact H2|]. eapply as_good_consider; eauto.
Qed.

Lemma task_draw st t e0 t0 loss : live_st S0 full bl B st -> live_task S0 full bl B t -> pop_inv S0 full Pn (tk_pop t) -> hall_inv S0 Pn (within E maxsize) (ss_hall st) ->
  admissible E full bl (tk_cur t) e0 t0 loss ->
  exists vs, Forall (toward F e0) vs /\ forall g', exists g r st', draws vs g g' /\ execute_task S0 full bl (redraw t g) = Ok r /\ apply_task_result S0 st r = Ok st'
    /\ as_good F (ss_hall st') (cost (ec_size C) t0) (cost_of E loss (cost (ec_size C) t0) bl).
Proof.
  intros Hst Ht Hpn Hhall Ha. pose proof Ht as ((Pl & Ps & Pr) & Hheld & Hcur & Hsl & Hi). pose proof (lv_size _ _ _ L) as Hsz. pose proof (lv_ok _ _ _ L) as HS.
  assert (Hus : usable full full) by apply (usable_full S0 full B L).
  destruct (s_r_cycle_draw S0 full bl B L (tk_stats t) (CH _) Hsl (tk_cur t) full e0 t0 loss Hcur Hus Ha (ps_pop (tk_pop t)) (es_ev (ps_st (tk_pop t))) (es_id (ps_st (tk_pop t)))
    (es_birth (ps_st (tk_pop t))) Ps ltac:(lia) Pr) as (vs & p' & ev' & best & k & id' & birth' & V & (m & M1 & M2 & M3) & S1 & L1 & R1 & D1).
  exists vs. split; auto. intros g'. destruct (D1 g') as (g & Dg & Eg). exists g.
  destruct (iteration_best E nf B bl (tk_cur t) full e0 t0 loss _ _ _ _ _ _ _ m O (evo0 S0 full B L _ Hcur) Ps eq_refl Eg Hcur M1 M2 M3) as (x & X1 & X2 & X3 & X4 & X5).
  assert (Hx : exists r, execute_task S0 full bl (redraw t g) = Ok r).
  { unfold execute_task, phase. rewrite Hfull. cbn [bind redraw tk_pop tk_cur tk_stats tk_idx ps_pop ps_st ps_gc ps_batch]. rewrite Eg. cbn [bind ps_pop ps_st ps_gc ps_batch].
    destruct (second_half_ok S0 full bl B L p' (mkEvoSt g' ev' id' birth') (ps_gc (tk_pop t)) full) as (p3 & s3 & gc3 & k3 & E3 & _); auto.
    - eapply Forall_impl; [|exact S1]. intros y. apply sound_good; auto.
    - apply Hheld.
    - rewrite E3. cbn [bind]. destruct (best_sub_total S0 p3 (sc_topn S0)) as [sub ->]. cbn [bind]. eauto. }
  destruct Hx as [r Hx]. assert (Hlt : live_task S0 full bl B (redraw t g)) by (split; [split; [|split]|split; [|split; [|split]]]; auto).
  destruct (execute_live S0 full bl B L _ Hlt) as [_ Hlr]. specialize (Hlr r Hx). destruct (apply_live S0 full bl B L st r Hst Hlr) as (st' & Eap & _).
  exists r, st'. split; auto. split; auto. split; auto. destruct (apply_hall st r st' Eap) as (h1 & Eh & Hh). apply Hh.
  assert (Hpn' : pop_inv S0 full Pn (tk_pop (redraw t g))) by (split; [|split]; apply Hpn).
  destruct (task_numeric S0 full bl B HS (redraw t g) r Hpn' Hcur Hx) as (_ & _ & Hnum).
  assert (Hseen : tr_seen r = best /\ tr_cur r = tk_cur t).
  { unfold execute_task, phase in Hx. rewrite Hfull in Hx. cbn [bind redraw tk_pop tk_cur tk_stats tk_idx ps_pop ps_st ps_gc ps_batch] in Hx. rewrite Eg in Hx. cbn [bind] in Hx.
    apply bind_ok in Hx as ([[[p3 s3] gc3] k3] & _ & Hx). apply bind_ok in Hx as (sub & _ & Hx). injection Hx as <-. auto. }
  destruct Hseen as [Hse Hcu]. rewrite Hse in *. rewrite Hcu in *. destruct Hhall as [Hlen Hhall].
  assert (Hrange : 1 <= m_complexity x <= tk_cur t) by (apply (feasible_range S0 full bl B HS _ x Hcur X4 X5)).
  pose proof (priced_num x (Hnum _ _ X1) ltac:(lia)) as Hxn.
  assert (Hxv : fltb F (m_cost x) (cost_of E loss (cost (ec_size C) t0) bl) = true \/ feqb F (m_cost x) (cost_of E loss (cost (ec_size C) t0) bl) = true).
  { destruct (ol_total _ O (m_cost x) (cost_of E loss (cost (ec_size C) t0) bl) Hxn) as [?|[?|?]]; auto; [|congruence]. apply Hcosts; [left; apply (ad_finite _ _ _ _ _ _ _ Ha)|lia]. }
  rewrite <- X2. eapply (update_good F O); [| | | | | |rewrite X2; exact Hxv|exact Eh].
  - intros c y Hy. destruct (Hhall c y Hy) as (Y1 & Y2 & Y3 & _). apply priced_num; [exact Y3|lia].
  - intros c y Hy. apply (Hhall c y Hy).
  - apply Forall_forall. intros y Hy. apply In_nth_error in Hy as (i & Hy). apply hof_members_nth in Hy as (c & Hy & _). apply priced_num; [eapply Hnum; eauto|].
    destruct (C42_iteration _ _ _ _ _ _ _ _ _ _ _ _ _ _ (evo0 S0 full B L _ Hcur) Ps eq_refl Eg) as (_ & _ & Hbl & Hbs & _). destruct (Hbs c y Hy) as (-> & _).
    assert (c < List.length best) by (apply nth_error_Some; unfold stored in Hy; congruence). lia.
  - apply in_hof_members. exists (cost (ec_size C) t0). exact X1.
  - destruct (so_expr _ _ _ _ _ X4) as (tx & Rx & Tx & _). destruct X5 as (ty & Ry & Fy). assert (ty = tx) as -> by (unfold represents in *; apply flatten_inj; congruence).
    destruct (check_ok S0 full B L (m_expr x) (tk_cur t)) as [b Eb]; [exists tx; auto|auto|]. pose proof (proj2 (check_spec E nf B _ (evo0 S0 full B L _ Hcur) _ tx b Rx Tx Eb) Fy) as ->. exact Eb.
  - rewrite Hlen. lia.
Qed.

Lemma kept_step nw c1 e c2 c v : cstep S0 full bl nw c1 e c2 -> as_good F (ss_hall (co_st c1)) c v -> as_good F (ss_hall (co_st c2)) c v.
Proof.
  intros H Hg. inversion H; subst; cbn [co_st] in *; auto.
  - match goal with Hd : dispatch _ _ _ = Ok (Some _) |- _ => unfold dispatch in Hd; apply bind_ok in Hd as (p & _ & Hd); destruct p as [ps|]; [|discriminate];
      apply bind_ok in Hd as (pops & _ & Hd); apply bind_ok in Hd as (cur & _ & Hd); injection Hd as <- _ end. exact Hg.
  - match goal with Ha : apply_task_result _ _ _ = Ok _ |- _ => apply apply_hall in Ha as (h1 & Eh & Hh) end. apply Hh. eapply as_good_update; eauto.
Qed.
Lemma kept_steps nw c1 es c2 c v : csteps S0 full bl nw c1 es c2 -> as_good F (ss_hall (co_st c1)) c v -> as_good F (ss_hall (co_st c2)) c v.
Proof. intros H. induction H as [|c1 e c2 es c3 H1 _ IH]; auto. intros Hg. apply IH. eapply kept_step; eauto. Qed.
Lemma kept_advances st l st' c v : advances S0 full bl st l st' -> as_good F (ss_hall st) c v -> as_good F (ss_hall st') c v.
Proof.
  intros H. induction H as [st g|st g i st1 l st2 (st3 & t & r & Hd & He & Hp) _ IH]; auto. intros Hg. apply IH.
  apply apply_hall in Hp as (h1 & Eh & Hh). apply Hh. eapply (as_good_update F O); [|exact Eh].
  unfold dispatch in Hd. apply bind_ok in Hd as (p & _ & Hd). destruct p as [ps|]; [|discriminate]. apply bind_ok in Hd as (pops & _ & Hd). apply bind_ok in Hd as (cur & _ & Hd). injection Hd as <- _. exact Hg.
Qed.
End Whole.

(** The parallel search, at every moment, for every task in flight: whatever happened before, there are draws for this task after which its result brings the formula, or a
    member of the same complexity that is no dearer, into the hall of fame; and whatever happens later, it holds such a member until the end. *)
Theorem C72_parallel : forall (T W : Type) (S0 : search_cfg T W) full bl B threads,
  let E := sc_E S0 in let F := ec_F (eo_C E) in let nw := n_workers S0 threads in
  live S0 full B -> OrderLaws F -> (forall loss k, numeric F loss -> k <= sel_maxsize (eo_sel E) -> num F (cost_of E loss k bl)) ->
  sc_batching S0 = false -> (forall st, chances S0 full B st) ->
  exists st0, init_search S0 full bl = Ok st0
    /\ forall es c t e0 t0 loss, csteps S0 full bl nw (parallel_start S0 st0) es c -> In t (co_flight c) -> admissible E full bl (tk_cur t) e0 t0 loss ->
       exists vs, Forall (toward F e0) vs /\ forall g', exists g r st', draws vs g g' /\ execute_task S0 full bl (redraw t g) = Ok r /\ apply_task_result S0 (co_st c) r = Ok st'
         /\ forall n tasks flight es' c', csteps S0 full bl nw (mkCoord st' n tasks flight) es' c' ->
              as_good F (ss_hall (co_st c')) (cost (ec_size (eo_C E)) t0) (cost_of E loss (cost (ec_size (eo_C E)) t0) bl).
Proof.
  intros T W S0 full bl B th E F nw L O Hcosts Hfull CH. destruct (init_live S0 full bl B L) as (st & Es & Hl). exists st. split; auto. intros es c t e0 t0 loss Hc Ht Ha.
  assert (HL : live_co S0 full bl B c) by (eapply csteps_live; [exact L| |exact Hc]; split; [exact Hl|split; cbn; tauto]). destruct HL as (H1 & H2 & _).
  destruct (inv_numeric S0 full bl B (lv_ok _ _ _ L)) as (N1 & N2 & _). destruct (N2 nw (parallel_start S0 st) es c) as [N3 N4]; [split; [apply N1; auto|intros ? []]|exact Hc|].
  destruct (task_draw S0 full bl B L O Hcosts Hfull CH (co_st c) t e0 t0 loss H1 (H2 t Ht) (proj1 (N4 t Ht)) (si_hall _ _ _ _ _ _ _ N3) Ha) as (vs & V & Hd).
  exists vs. split; auto. intros g'. destruct (Hd g') as (g & r & st' & D1 & D2 & D3 & D4). exists g, r, st'. split; auto. split; auto. split; auto. intros n tasks fl es' c' Hc'.
  eapply kept_steps; [exact O|exact Hc'|]. exact D4.
Qed.

(** The stepwise engine: the same for the next cycle after any calls of [step]. *)
Theorem C72_engine : forall (T W : Type) (S0 : search_cfg T W) full B en0 ns en ks,
  let E := sc_E S0 in let F := ec_F (eo_C E) in let bl := en_bl en0 in
  live S0 full B -> OrderLaws F -> (forall loss k, numeric F loss -> k <= sel_maxsize (eo_sel E) -> num F (cost_of E loss k bl)) ->
  sc_batching S0 = false -> (forall st, chances S0 full B st) ->
  engine_new S0 full = Ok en0 -> steps S0 en0 ns = Ok (en, ks) ->
  forall order i st1 t e0 t0 loss, dispatch S0 (with_order (en_st en) order) i = Ok (Some (st1, t)) -> admissible E full bl (tk_cur t) e0 t0 loss ->
    exists vs, Forall (toward F e0) vs /\ forall g', exists g r st', draws vs g g' /\ execute_task S0 full bl (redraw t g) = Ok r /\ apply_task_result S0 st1 r = Ok st'
      /\ forall l st2, advances S0 full bl st' l st2 ->
           as_good F (ss_hall st2) (cost (ec_size (eo_C E)) t0) (cost_of E loss (cost (ec_size (eo_C E)) t0) bl).
Proof.
  intros T W S0 full B en0 ns en ks E F bl L O Hcosts Hfull CH Hn Hs order i st1 t e0 t0 loss Hd Ha.
  destruct (C37_cycles T W S0 full en0 ns en ks Hn Hs) as (l0 & Hadv & _). fold bl in Hadv.
  assert (Hi : init_search S0 full bl = Ok (en_st en0)).
  { unfold engine_new in Hn. apply bind_ok in Hn as (bl' & _ & Hn). apply bind_ok in Hn as (st & Hi & Hn). subst bl. injection Hn as <-. exact Hi. }
  destruct (init_live S0 full bl B L) as (st & Es & Hl). rewrite Hi in Es. injection Es as <-.
  pose proof (advances_live S0 full bl B L _ _ _ Hl Hadv) as Hl1. apply (with_order_live S0 full bl B _ order) in Hl1.
  destruct (inv_numeric S0 full bl B (lv_ok _ _ _ L)) as (N1 & _ & N2). pose proof (N2 _ _ _ (N1 _ Hi) Hadv) as N3.
  assert (Hlt : i < sc_populations S0).
  { pose proof Hd as Hd'. apply dispatch_some in Hd' as (D1 & _). rewrite <- (ls_pops _ _ _ _ _ Hl1). apply nth_error_Some. congruence. }
  destruct (dispatch_live S0 full bl B L _ i Hl1 Hlt) as [_ Hdl]. destruct (Hdl _ _ Hd) as [Hst1 Ht].
  assert (Hn1 : pop_inv S0 full (fun m => sound E (ds_n_features full) B bl m /\ numeric F (m_loss m)) (tk_pop t) /\ ss_hall st1 = ss_hall (en_st en)).
  { pose proof Hd as Hd'. unfold dispatch in Hd'. apply bind_ok in Hd' as (p & Hp & Hd'). destruct p as [ps|]; [|discriminate].
    apply bind_ok in Hd' as (pops & _ & Hd'). apply bind_ok in Hd' as (cur & _ & Hd'). injection Hd' as <- <-. cbn [tk_pop ss_hall with_order]. split; auto.
    unfold index in Hp. cbn [with_order ss_pops] in Hp. destruct (nth_error (ss_pops (en_st en)) i) as [q|] eqn:En; [|discriminate]. injection Hp as ->. apply (si_pops _ _ _ _ _ _ _ N3). eapply nth_error_In; eauto. }
  destruct Hn1 as [Hn1 Hh1].
  destruct (task_draw S0 full bl B L O Hcosts Hfull CH st1 t e0 t0 loss Hst1 Ht Hn1) as (vs & V & Hdr); [rewrite Hh1; apply (si_hall _ _ _ _ _ _ _ N3)|exact Ha|].
  exists vs. split; auto. intros g'. destruct (Hdr g') as (g & r & st' & D1 & D2 & D3 & D4). exists g, r, st'. split; auto. split; auto. split; auto. intros l st2 Hadv2.
  eapply kept_advances; [exact O|exact Hadv2|]. exact D4.
Qed.

(** ** When the draws have a chance *)

(** In exact arithmetic every entry with a positive weight can be drawn. *)
Theorem C72_every_choice : forall (W : Type) (F : FloatOps W) (val : W -> Q), ExactLaws F val ->
  forall ws j w, Forall (weight_ok F val) ws -> nth_error ws j = Some w -> (0 < val w)%Q ->
  exists u, uniform F u /\ forall g, weighted_index F (next_real u g) ws = Ok (j, g).
Proof.
  intros W F val X ws j w Hw Hj Hp. destruct (ex_zero _ _ X) as [Hz Ez]. destruct (ex_one _ _ X) as [Ho Eo].
  pose proof (firstn_skipn j ws) as Hs. assert (Hsk : skipn j ws = w :: skipn (S j) ws).
  { clear - Hj. revert j Hj. induction ws as [|x ws IH]; intros [|j] Hj; try discriminate; cbn in *; [congruence|auto]. }
  assert (Hf1 : Forall (weight_ok F val) (firstn j ws)) by (rewrite <- Hs in Hw; apply Forall_app in Hw; tauto).
  assert (Hf2 : Forall (weight_ok F val) (skipn (S j) ws)) by (rewrite <- Hs, Hsk in Hw; apply Forall_app in Hw as [_ Hw]; inversion Hw; auto).
  destruct (sum_weights_spec F val X (firstn j ws) (fzero F) Hz) as [H1 _]. destruct (H1 Hf1) as (a & _ & Ha & Va).
  destruct (sum_weights_spec F val X ws (fzero F) Hz) as [H2 _]. destruct (H2 Hw) as (t & _ & Ht & Vt).
  assert (Hsum : (Qsum (vals val ws) == Qsum (vals val (firstn j ws)) + (val w + Qsum (vals val (skipn (S j) ws))))%Q).
  { rewrite <- Hs at 1. rewrite Hsk. unfold vals. rewrite map_app, Qsum_app. cbn [map Qsum]. reflexivity. }
  pose proof (Qsum_nonneg _ (vals_nonneg F val _ Hf1)) as N1. pose proof (Qsum_nonneg _ (vals_nonneg F val _ Hf2)) as N2.
  assert (Ht0 : (0 < val t)%Q) by (rewrite Vt, Hsum, Ez; lra).
  destruct (ex_div _ _ X a t Ha Ht ltac:(lra)) as [Hd Vd].
  assert (Hmul : (val (fdiv F a t) * val t == val a)%Q) by (rewrite Vd; field; lra).
  assert (Hu : (0 <= val (fdiv F a t) < 1)%Q).
  { split; rewrite Vd; [apply Qle_shift_div_l|apply Qlt_shift_div_r]; auto; rewrite Va, ?Vt, ?Hsum, Ez; lra. }
  exists (fdiv F a t). split.
  { split; [|apply (ex_lt _ _ X); auto; rewrite Eo; apply Hu]. unfold fleb. destruct (fltb F (fzero F) (fdiv F a t)) eqn:El; auto. apply (ex_eq _ _ X); auto. rewrite Ez.
    destruct (Qlt_le_dec 0 (val (fdiv F a t))) as [Hc|]; [|lra]. exfalso. rewrite <- Ez in Hc. apply (ex_lt _ _ X) in Hc; auto. congruence. }
  intros g. destruct (C29_weighted_index F val X (next_real (fdiv F a t) g) ws Hw) as (i & r' & wi & Ei & Ni & Pi & Lo & Hi).
  - apply Exists_exists. exists w. split; auto. eapply nth_error_In; eauto.
  - exact Hd.
  - exact Hu.
  - assert (Er : r' = g).
    { unfold weighted_index in Ei. destruct ws as [|x xs]; [discriminate|]. apply bind_ok in Ei as (tt & _ & Ei). destruct (_ || _); [discriminate|].
      replace (rng_real (next_real (fdiv F a t) g)) with (fdiv F a t, g) in Ei by (destruct g; reflexivity). now injection Ei as _ <-. }
    subst r'. rewrite Ei. f_equal. f_equal. cbn [next_real rg_real] in Lo, Hi.
    assert (Hval : (val (fdiv F a t) * Qsum (vals val ws) == Qsum (vals val (firstn j ws)))%Q).
    { assert (Et : (Qsum (vals val ws) == val t)%Q) by (rewrite Vt, Ez; lra). rewrite Et, Hmul, Va, Ez. lra. }
    rewrite Hval in Lo, Hi.
    assert (Mono : forall p q x, p < q -> nth_error ws p = Some x -> (Qsum (vals val (firstn p ws)) + val x <= Qsum (vals val (firstn q ws)))%Q).
    { clear - Hw. intros p q x Hpq Hx. revert p q Hpq Hx. induction ws as [|y ys IH]; intros [|p] [|q] Hpq Hx; try discriminate; try lia; inversion Hw as [|? ? [_ Hy] Hys]; subst.
      - cbn in Hx. injection Hx as ->. cbn [firstn vals map Qsum].
        assert (Forall (weight_ok F val) (firstn q ys)) by (rewrite <- (firstn_skipn q ys) in Hys; apply Forall_app in Hys; tauto).
        pose proof (Qsum_nonneg _ (vals_nonneg F val _ H)). unfold vals in *. lra.
      - cbn [firstn vals map Qsum]. specialize (IH Hys p q ltac:(lia) Hx). unfold vals in *. lra. }
    destruct (lt_eq_lt_dec i j) as [[Hlt|He]|Hgt]; auto; exfalso.
    + specialize (Mono i j wi Hlt Ni). lra.
    + specialize (Mono j i w Hgt Hj). lra.
Qed.

(** A draw for the middle of the share of the random formula, and what it leads to. *)
Definition can_randomize {W} (F : FloatOps W) (half : W) (w : weights W) : bool :=
  let ws := map snd (choices w) in let total := fold_left (fadd F) ws (fzero F) in
  let u := fdiv F (fadd F (fold_left (fadd F) (firstn 9 ws) (fzero F)) (fmul F half (w_randomize w))) total in
  drawableb F ws && fleb F (fzero F) u && fltb F u (fone F) && (pick_weight F ws 0 (fmul F u total) 11 =? 9).
Lemma can_randomize_ok {W} (F : FloatOps W) half w : can_randomize F half w = true ->
  exists u, uniform F u /\ forall g, sample_mutation F (next_real u g) w = Ok (Randomize, g).
Proof.
  unfold can_randomize. cbv zeta. intros H. apply andb_true_iff in H as [H H4]. apply andb_true_iff in H as [H H3]. apply andb_true_iff in H as [H1 H2]. apply Nat.eqb_eq in H4.
  eexists. split; [split; [exact H2|exact H3]|]. intros g. apply drawableb_ok in H1 as (_ & Hf & Ht & Hp). unfold sample_mutation, weighted_index. rewrite (sum_weights_ok F) by auto. cbn [bind].
  remember (map snd (choices w)) as ws eqn:Ews. assert (Hl : List.length ws = 12) by (subst; reflexivity). rewrite Ht, Hp. cbn [negb orb]. destruct ws as [|w0 ws]; [discriminate|].
  match goal with |- context [rng_real (next_real ?v g)] => replace (rng_real (next_real v g)) with (v, g) by (destruct g; reflexivity) end. rewrite Hl. change (12 - 1) with 11. rewrite H4. reflexivity.
Qed.

(** Signs of binary floats. *)
Definition unsigned (x : spec_float) : Prop := match x with S754_zero s | S754_infinity s | S754_finite s _ _ => s = false | S754_nan => True end.
Lemma unsigned_ge p e x : unsigned x -> fltb (sfops p e) x (fzero (sfops p e)) = false.
Proof. destruct x as [[]|[]| |[]]; cbn; intros; try discriminate; reflexivity. Qed.
Lemma unsigned_round p e m ex l : unsigned (binary_round_aux p e false m ex l).
Proof.
  unfold binary_round_aux. destruct (shr_fexp p e m ex l) as [r e1]. destruct (shr_fexp p e _ e1 loc_Exact) as [r2 e2]. destruct (shr_m r2); cbn; auto. destruct (_ <=? _)%Z; reflexivity.
Qed.
Lemma unsigned_mul p e x y : unsigned x -> unsigned y -> unsigned (SFmul p e x y).
Proof.
  destruct x as [sx|sx| |sx mx ex], y as [sy|sy| |sy my ey]; cbn [unsigned SFmul]; intros; subst; auto. apply unsigned_round.
Qed.
Lemma unsigned_div p e x y : unsigned x -> unsigned y -> unsigned (SFdiv p e x y).
Proof.
  destruct x as [sx|sx| |sx mx ex], y as [sy|sy| |sy my ey]; cbn [unsigned SFdiv]; intros; subst; auto. destruct (SFdiv_core_binary _ _ _ _ _ _) as [[mz ez] lz]. apply unsigned_round.
Qed.
Lemma unsigned_mul64 x y : unsigned x -> unsigned y -> unsigned (fmul f64ops x y).
Proof. apply unsigned_mul. Qed.
Lemma unsigned_div64 x y : unsigned x -> unsigned y -> unsigned (fdiv f64ops x y).
Proof. apply unsigned_div. Qed.
Lemma unsigned_wmax v eps : fltb f64ops (fzero f64ops) eps = true -> unsigned (wmax f64ops v eps).
Proof.
  intros H. unfold wmax. assert (He : unsigned eps) by (destruct eps as [[]|[]| |[]]; try discriminate H; reflexivity).
  destruct (negb (feqb f64ops v v)); auto. assert (En : feqb f64ops eps eps = true) by (apply sf_num; intros ->; discriminate H). rewrite En. cbn [negb].
  destruct (fltb f64ops v eps) eqn:El; auto. destruct v as [[]|[]| |[]], eps as [[]|[]| |[]]; try discriminate H; try discriminate El; cbn; auto.
Qed.

(** The default options in binary64: premises on the environment only. [exp] does not give negative numbers; the constant that keeps frequencies away from 0 is positive;
    the floor of the normalization is positive, complexities within maxsize are finite as floats; the loop of the tournament has fuel. *)
Record sane (V : environment spec_float spec_float) : Prop := {
  sn_exp : forall x, unsigned (ev_exp V x);
  sn_eps : fltb f64ops (fzero f64ops) (ev_eps V) = true;
  sn_cent : ffinite f64ops (lo_cent (ev_LO V)) = true /\ fltb f64ops (fzero f64ops) (lo_cent (ev_LO V)) = true;
  sn_of_nat : forall k, k <= 30 -> ffinite f64ops (lo_of_nat (ev_LO V) k) = true;
  sn_fuel : 15 <= ev_fuel V }.

Lemma default_randomize (e : expr spec_float) cx o cur nf :
  exists u, uniform f64ops u /\ forall g, sample_mutation f64ops (next_real u g) (condition_mutation_weights f64ops f64_of_nat default_weights e cx o cur nf) = Ok (Randomize, g).
Proof.
  destruct (conditioned_all f64ops f64_of_nat default_weights e cx o cur nf) as (b1 & b2 & b3 & b4 & b5 & b6 & b7 & k & Hk & ->).
  apply (can_randomize_ok f64ops (f64lit 1 (-1))). apply (every_in (can_randomize f64ops (f64lit 1 (-1))) f64ops f64_of_nat default_weights); [vm_compute; reflexivity|exact Hk].
Qed.
Lemma default_chances V seed reg loss full st : ieee V -> sane V -> chances (search_options V (defaults V seed reg loss)) full 30 st.
Proof.
  intros [HF Hon Hw H32 Hum HD] [N1 N2 N3 N4 N5].
  split; cbn [search_options defaults with_seed default_knobs evolution_options eval_options optimizer_options selection_options o_knobs o_operators o_loss o_variable_complexities
    o_operator_complexity_overrides o_op_constraints o_nested_constraints size_options sc_E eo_C eo_opt eo_sel eo_of_nat eo_weights eo_simplify eo_opt_prob eo_crossover_prob eo_fuel ec_F oc_enabled
    tournament_selection_n sel_maxsize k_tournament_selection_n k_maxsize k_mutation_weights k_should_simplify k_should_optimize_constants k_optimizer_probability k_crossover_probability].
  - rewrite HF. exists (f64lit 1 (-1)). split; [split|]; reflexivity.
  - intros e cx cur _ _. rewrite HF, Hon, default_weights_dec. apply default_randomize.
  - intros temp c1 c2 s1 s2 p Hp. rewrite HF. apply (unsigned_ge 53 1024). unfold acceptance in Hp.
    cbn [search_options defaults with_seed default_knobs evolution_options eval_options sc_E eo_annealing eo_use_frequency eo_exp eo_alpha eo_C ec_F o_knobs k_annealing k_use_frequency] in Hp.
    rewrite HF in Hp.
    assert (Hsf : forall s v, size_freq (sc_E (search_options V (defaults V seed reg loss))) st s = Ok v -> unsigned v).
    { intros s v Hs. assert (He : unsigned (ev_eps V)) by (destruct (ev_eps V) as [[]|[]| |[]]; try discriminate N2; reflexivity).
      unfold size_freq, freq in Hs. cbn [search_options evolution_options eval_options sc_E eo_eps eo_C ec_F] in Hs. rewrite HF in Hs.
      destruct (_ && _); [|injection Hs as <-; exact He]. destruct (_ || _); [injection Hs as <-; exact He|]. apply bind_ok in Hs as (x & _ & Hs). injection Hs as <-. apply unsigned_wmax. exact N2. }
    apply bind_ok in Hp as (f1 & Hf1 & Hp). apply bind_ok in Hp as (f2 & Hf2 & Hp). apply Hsf in Hf1. apply Hsf in Hf2.
    assert (Hok : forall a b : spec_float, Ok a = Ok b -> a = b) by (intros ? ? H; now injection H). apply Hok in Hp. subst p.
    apply unsigned_mul64; [apply unsigned_mul64; [reflexivity|apply N1]|apply unsigned_div64; auto].
  - rewrite HF. split; reflexivity.
  - exact N5.
Qed.
Lemma default_costs V seed reg loss bl : ieee V -> sane V -> let E := sc_E (search_options V (defaults V seed reg loss)) in
  forall l k, numeric (ec_F (eo_C E)) l -> k <= sel_maxsize (eo_sel E) -> num (ec_F (eo_C E)) (cost_of E l k bl).
Proof.
  intros [HF Hon Hw H32 Hum HD] [N1 N2 [N3 N3'] N4 N5] E l k Hl Hk. unfold cost_of.
  change (ec_F (eo_C E)) with (ev_F V) in *. change (ec_LO (eo_C E)) with (ev_LO V). change (sel_maxsize (eo_sel E)) with 30 in Hk. rewrite HF in *. apply C50_binary64; auto.
  change (ec_parsimony (eo_C E)) with (dec64 0 1). specialize (N4 k Hk). destruct (lo_of_nat (ev_LO V) k); try discriminate N4; reflexivity.
Qed.

(** With the default options, on any proper data, with any operators and any of the losses: at every moment of the search, for every task in flight, every admissible formula is
    within reach of that task. *)
Theorem C72_defaults : forall V seed reg loss full bl threads, ieee V -> sane V -> data_ok full -> 1 <= ds_n_features full ->
  (List.length reg = ev_D V /\ forall a op, 1 <= a <= ev_D V -> In op (ops_of_arity reg a) -> fst op = a /\ oknown (ev_O V) a (snd op) = true) ->
  let S := search_options V (defaults V seed reg loss) in let E := sc_E S in let nw := n_workers S threads in
  exists st0, init_search S full bl = Ok st0
    /\ forall es c t e0 t0 l0, csteps S full bl nw (parallel_start S st0) es c -> In t (co_flight c) -> admissible E full bl (tk_cur t) e0 t0 l0 ->
       exists vs, Forall (toward f64ops e0) vs /\ forall g', exists g r st', draws vs g g' /\ execute_task S full bl (redraw t g) = Ok r /\ apply_task_result S (co_st c) r = Ok st'
         /\ forall n tasks flight es' c', csteps S full bl nw (mkCoord st' n tasks flight) es' c' ->
              as_good f64ops (ss_hall (co_st c')) (cost (ec_size (eo_C E)) t0) (cost_of E l0 (cost (ec_size (eo_C E)) t0) bl).
Proof.
  intros V seed reg loss full bl th HV Hs Hd Hnf Hr S E nw. pose proof (defaults_live V seed reg loss full HV Hd Hr Hnf) as L. fold S in L.
  assert (HF : ec_F (eo_C E) = f64ops) by (exact (ie_F V HV)). rewrite <- HF. apply (C72_parallel _ _ S full bl 30 th L).
  - fold E. rewrite HF. apply sf_order_laws.
  - apply (default_costs V seed reg loss bl HV Hs).
  - reflexivity.
  - intros st. apply default_chances; auto.
Qed.

(** ** Cases *)

(** The premises hold of the search of C49_case in exact arithmetic; 9/4 * x0 is admissible, with the loss 7/64, and has a task in flight to reach it. *)
Definition reach_expr : expr xq := mkExpr [Const 0; Var 0; Op 2 5] [XF (9 # 4)] [].
Definition reach_tree : tree := TOp 5 [TConst 0; TVar 0].
Lemma live_chances st : chances (live_search false 1) demo_data 9 st.
Proof.
  split.
  - exists (XF (1 # 2)). split; [split|]; reflexivity.
  - intros e cx cur _ _. match goal with |- context [condition_mutation_weights ?F ?n ?w e cx ?o cur ?nf] => destruct (conditioned_all F n w e cx o cur nf) as (b1 & b2 & b3 & b4 & b5 & b6 & b7 & k & Hk & ->) end.
    apply (can_randomize_ok xqops (XF (1 # 2))).
    apply (every_in (can_randomize xqops (XF (1 # 2))) xqops (fun n => XF (inject_Z (Z.of_nat n))) (all_weights 1)); [vm_compute; reflexivity|exact Hk].
  - intros temp c1 c2 s1 s2 p Hp. unfold acceptance in Hp. cbn [live_search search_with live_evo evo_with sc_E eo_annealing eo_use_frequency] in Hp. injection Hp as <-. reflexivity.
  - split; reflexivity.
  - cbn. lia.
Qed.
Lemma live_costs : forall loss k, numeric xqops loss -> k <= 9 -> num xqops (cost_of live_evo loss k None).
Proof.
  intros loss k Hl _. unfold cost_of, loss_to_cost, num, numeric in *. destruct loss as [q|[]|]; [|reflexivity|reflexivity|destruct Hl; discriminate]. cbn. apply Qeq_bool_refl.
Qed.
Definition reach_loss : xq :=
  match lf_loss (ec_loss (eo_C live_evo)) (predictions (eo_C live_evo) demo_data reach_expr reach_tree) (ds_y demo_data) (ds_weights demo_data) with Ok l => l | _ => XNaN end.
Lemma reach_admissible : admissible live_evo demo_data None 9 reach_expr reach_tree reach_loss.
Proof.
  split.
  - reflexivity.
  - cbn. split; [lia|]. split; [reflexivity|]. split; [lia|]. split; [lia|]. exact I.
  - split; [cbn; lia|]. split; [cbn; lia|]. split.
    + intros op cs lims j lim k _ Hl. cbn in Hl. discriminate.
    + intros op cs rules nested mx k p _ Hl. cbn in Hl. discriminate.
  - split; [|intros i Hi; discriminate]. intros r Hr. cbn in Hr. destruct r as [|[|[|r]]]; [reflexivity|reflexivity|reflexivity|lia].
  - vm_compute. reflexivity.
  - reflexivity.
  - vm_compute. reflexivity.
Qed.
Example C72_case : let S0 := live_search false 1 in live S0 demo_data 9 /\ OrderLaws xqops /\ (forall st, chances S0 demo_data 9 st)
  /\ (forall loss k, numeric xqops loss -> k <= 9 -> num xqops (cost_of live_evo loss k None))
  /\ admissible live_evo demo_data None 9 reach_expr reach_tree reach_loss /\ (xval reach_loss == 7 # 64)%Q
  /\ exists st0 es c, init_search S0 demo_data None = Ok st0 /\ csteps S0 demo_data None (n_workers S0 8) (parallel_start S0 st0) es c
     /\ map tk_cur (co_flight c) = [9; 9] /\ map (option_map (fun m => Qred (xval (m_loss m)))) (ss_hall (co_st c)) = [None; None; None; None; None; None; None; Some (11 # 98); None; None].
Proof.
  intros S0. split; [apply live_search_live; auto|]. split; [exact xq_order_laws|]. split; [exact live_chances|]. split; [exact live_costs|]. split; [exact reach_admissible|].
  split; [vm_compute; reflexivity|].
  assert (E : after (fun c => (map tk_cur (co_flight c), map (option_map (fun m => Qred (xval (m_loss m)))) (ss_hall (co_st c)))) S0 demo_data [NewIteration; Dispatch 1 9; Dispatch 0 9]
    = Some ([9; 9], [None; None; None; None; None; None; None; Some (11 # 98); None; None])) by (vm_compute; reflexivity).
  apply after_inv in E as (st0 & es & c & Hi & Hc & E). injection E as E1 E2. exists st0, es, c. auto.
Qed.

(** The environment of C49_defaults_case, with a function that is not negative in the place of [exp]: the premises of C72_defaults hold, and 9/4 * x0 is admissible. *)
Definition sane_env : environment spec_float spec_float :=
  let V := ieee_env in
  mkEnv (ev_F V) (ev_LO V) (ev_O V) (ev_hash V) (ev_umax V) (ev_D V) (ev_OO V) (ev_to V) (ev_of V) (ev_g_abstol V) (ev_ls V) (ev_powf V) (ev_1_1 V) (ev_ccfg V) SFabs (ev_eps V)
    (ev_of_nat V) (ev_fuel V) (ev_stale V) (ev_poisson V) (ev_generator V) (ev_stride V) (ev_F32 V) (ev_of32 V) (ev_floor32 V) (ev_widen V).
Definition sane_expr : expr spec_float := mkExpr [Const 0; Var 0; Op 2 5] [f64lit 9 (-2)] [].
Definition sane_loss : spec_float :=
  let C := eo_C (sc_E (search_options sane_env (defaults sane_env 5 ieee_reg LMse))) in
  match lf_loss (ec_loss C) (predictions C ieee_data sane_expr reach_tree) (ds_y ieee_data) (ds_weights ieee_data) with Ok l => l | _ => S754_nan end.
Example C72_defaults_case : let S0 := search_options sane_env (defaults sane_env 5 ieee_reg LMse) in
  ieee sane_env /\ sane sane_env /\ data_ok ieee_data /\ 1 <= ds_n_features ieee_data
  /\ (List.length ieee_reg = ev_D sane_env /\ forall a op, 1 <= a <= ev_D sane_env -> In op (ops_of_arity ieee_reg a) -> fst op = a /\ oknown (ev_O sane_env) a (snd op) = true)
  /\ admissible (sc_E S0) ieee_data None 30 sane_expr reach_tree sane_loss /\ sane_loss = f64lit 1 (-3).
Proof.
  destruct C49_defaults_case as (H1 & H2 & H3 & H4). split; [split; try reflexivity; cbn; unfold u16_max, u8_max; lia|]. split.
  { split.
    - intros [[]|[]| |[]]; cbn; auto.
    - vm_compute. reflexivity.
    - split; vm_compute; reflexivity.
    - intros k Hk. assert (H : forallb (fun k => ffinite f64ops (f64_of_nat k)) (seq 0 31) = true) by (vm_compute; reflexivity). rewrite forallb_forall in H. apply H. apply in_seq. lia.
    - cbn. lia. }
  split; auto. split; auto. split; auto. split.
  - split.
    + reflexivity.
    + cbn. split; [lia|]. split; [reflexivity|]. split; [lia|]. split; [lia|]. exact I.
    + split; [cbn; lia|]. split; [cbn; lia|]. split.
      * intros op cs lims j lim k _ Hl. cbn in Hl. discriminate.
      * intros op cs rules nested mx k p _ Hl. cbn in Hl. discriminate.
    + split; [|intros i Hi; discriminate]. intros r Hr. cbn in Hr. destruct r as [|[|[|r]]]; [vm_compute; reflexivity|vm_compute; reflexivity|vm_compute; reflexivity|lia].
    + vm_compute. reflexivity.
    + vm_compute. reflexivity.
    + vm_compute. reflexivity.
  - vm_compute. reflexivity.
Qed.

Print Assumptions C72_step.
Print Assumptions C72_iteration.
Print Assumptions C72_parallel.
Print Assumptions C72_engine.
Print Assumptions C72_every_choice.
Print Assumptions C72_defaults.
