(** Properties C37 and C38: the stepwise engine and the parallel coordinator. *)
From Coq Require Import Permutation QArith.
From Verif Require Import Base BaseLemmas Node Compile Eval Deriv Rng Registry Mutation Complexity Member PropHof Selection SelectionProofs PropSelection
  Simplify Conditioning Dataset Loss PropLoss Num Optim PropOptim ConstOpt Evolution PropEvolution Search.
Local Open Scope nat_scope.

(** ** Specification *)

(** Population [i] is taken, advanced by one task, and its result is applied. *)
Definition advance {T W} (S0 : search_cfg T W) (full : dataset T) (bl : option T) (st : search_st T) (i : nat) (st' : search_st T) : Prop :=
  exists st1 t r, dispatch S0 st i = Ok (Some (st1, t)) /\ execute_task S0 full bl t = Ok r /\ apply_task_result S0 st1 r = Ok st'.

(** The populations [l] are advanced one after the other; only the generator of the task order may move in between. *)
Inductive advances {T W} (S0 : search_cfg T W) (full : dataset T) (bl : option T) : search_st T -> list nat -> search_st T -> Prop :=
| AdvNil st g : advances S0 full bl st [] (with_order st g)
| AdvCons st g i st1 l st2 : advance S0 full bl (with_order st g) i st1 -> advances S0 full bl st1 l st2 -> advances S0 full bl st (i :: l) st2.

(** The calls step(n1), step(n2), ... in a row, with the numbers they return. *)
Fixpoint steps {T W} (S0 : search_cfg T W) (en : engine) (ns : list nat) : res (@engine T * list nat) :=
  match ns with
  | [] => Ok (en, [])
  | n :: ns' =>
      let! (en, k) := step S0 en n in
      let! (en, ks) := steps S0 en ns' in
      Ok (en, k :: ks)
  end.

Definition sum (l : list nat) : nat := fold_right Nat.add 0 l.
Definition count (l : list nat) (i : nat) : nat := count_occ Nat.eq_dec l i.

(** ** Lemmas *)
Section Search.
Context {T W : Type} (S0 : search_cfg T W).
Local Notation npop := (sc_populations S0).

Lemma dispatch_some st i st' t : dispatch S0 st i = Ok (Some (st', t)) ->
  nth_error (ss_pops st) i = Some (Some (tk_pop t)) /\ tk_idx t = i
  /\ ss_pops st' = upd (ss_pops st) i None /\ ss_subs st' = ss_subs st /\ ss_best st' = ss_best st /\ ss_hall st' = ss_hall st /\ ss_stats st' = ss_stats st
  /\ ss_started st' = ss_started st + 1 /\ ss_completed st' = ss_completed st /\ ss_order st' = ss_order st
  /\ tk_stats t = normalize (ec_F (eo_C (sc_E S0))) (ss_stats st)
  /\ get_cur_maxsize (sc_F32 S0) (sc_of32 S0) (sc_floor32 S0) (sc_warmup_by S0) (sel_maxsize (eo_sel (sc_E S0))) (total_cycles S0) (total_cycles S0 - ss_started st)
     = Ok (tk_cur t).
Proof.
  unfold dispatch. intros H. apply bind_ok in H as (p & Hp & H). unfold index in Hp. destruct (nth_error (ss_pops st) i) eqn:E1; [|discriminate].
  cbn in Hp. injection Hp as ->. destruct p as [ps|]; [|discriminate].
  apply bind_ok in H as (pops & H1 & H). apply bind_ok in H as (cur & H2 & H). injection H as <- <-. cbn.
  unfold set_index in H1. destruct (i <? _); [|discriminate]. injection H1 as <-. auto 20.
Qed.
Lemma dispatch_none st i : dispatch S0 st i = Ok None -> nth_error (ss_pops st) i = Some None.
Proof.
  unfold dispatch. intros H. apply bind_ok in H as (p & Hp & H). unfold index in Hp. destruct (nth_error (ss_pops st) i) eqn:E1; [|discriminate].
  cbn in Hp. injection Hp as ->. destruct p as [ps|]; auto.
  apply bind_ok in H as (pops & H1 & H). apply bind_ok in H as (cur & H2 & H). discriminate.
Qed.
Lemma execute_idx full bl t r : execute_task S0 full bl t = Ok r -> tr_idx r = tk_idx t /\ tr_cur r = tk_cur t.
Proof.
  unfold execute_task. intros H. apply bind_ok in H as ([d1 ps1] & _ & H). apply bind_ok in H as ([[[p1 s1] h1] k1] & _ & H).
  apply bind_ok in H as ([d2 ps2] & _ & H). apply bind_ok in H as ([[[p2 s2] gc] k2] & _ & H). apply bind_ok in H as (sub & _ & H).
  injection H as <-. auto.
Qed.
Lemma apply_frame st r st' : apply_task_result S0 st r = Ok st' ->
  exists ps, ss_pops st' = upd (ss_pops st) (tr_idx r) (Some ps) /\ tr_idx r < List.length (ss_pops st)
  /\ ss_subs st' = upd (ss_subs st) (tr_idx r) (tr_sub r) /\ tr_idx r < List.length (ss_subs st)
  /\ ss_started st' = ss_started st /\ ss_completed st' = ss_completed st + 1 /\ ss_order st' = ss_order st
  /\ ss_evals st' = ss_evals st + tr_evals r.
Proof.
  unfold apply_task_result. cbv zeta. intros H. apply bind_ok in H as (subs & H1 & H). apply bind_ok in H as (x & H2 & H). apply bind_ok in H as (h1 & H3 & H).
  apply bind_ok in H as ([h2 b] & H4 & H). apply bind_ok in H as (ps1 & H5 & H). apply bind_ok in H as (ps2 & H6 & H). apply bind_ok in H as (pops & H7 & H).
  injection H as <-. cbn. unfold set_index in *. destruct (tr_idx r <? List.length (ss_subs st)) eqn:L1; [|discriminate]. injection H1 as <-.
  destruct (tr_idx r <? List.length (ss_pops st)) eqn:L2; [|discriminate]. injection H7 as <-. apply Nat.ltb_lt in L1, L2. exists ps2. auto 10.
Qed.

(** All the populations are at home. *)
Definition at_home (st : search_st T) : Prop :=
  List.length (ss_pops st) = npop /\ List.length (ss_subs st) = npop /\ Forall (fun p => p <> None) (ss_pops st).

Lemma advance_home full bl st i st' : at_home st -> advance S0 full bl st i st' ->
  at_home st' /\ ss_started st' = ss_started st + 1 /\ ss_completed st' = ss_completed st + 1 /\ ss_order st' = ss_order st.
Proof.
  intros (H1 & H2 & H3) (st1 & t & r & Hd & He & Ha). apply dispatch_some in Hd as (D1 & D2 & D3 & D4 & _ & _ & _ & D5 & D6 & D7 & _ & D8).
  apply execute_idx in He as [He _]. apply apply_frame in Ha as (ps & A1 & A2 & A3 & A4 & A5 & A6 & A7 & _).
  rewrite He, D2 in *. rewrite D3, D4 in *. unfold at_home. rewrite A1, A3, !upd_length. split; [|rewrite A5, A6, A7, D5, D6, D7; auto].
  split; auto. split; auto. rewrite Forall_forall in *. intros p Hp. apply In_nth_error in Hp as (j & Hj).
  apply nth_error_upd_cases in Hj as [[_ ->]|[Hn Hj]]; [discriminate|]. apply nth_error_upd_cases in Hj as [[Hc _]|[_ Hj]]; [congruence|].
  apply H3. eapply nth_error_In; eauto.
Qed.

Lemma init_members_home n d bl s h : forall ms s' h', init_members S0 n d bl s h = Ok (ms, s', h') -> List.length ms = n.
Proof.
  revert s h. induction n as [|n IH]; intros s h ms s' h' H; cbn [init_members] in H; [injection H as <- _ _; auto|].
  apply bind_ok in H as ([e g] & _ & H). apply bind_ok in H as (m & _ & H). apply bind_ok in H as ([[m1 ev] ok] & _ & H). apply bind_ok in H as (h1 & _ & H).
  apply bind_ok in H as ([[ms1 s1] h2] & H1 & H). injection H as <- _ _. cbn. f_equal. eauto.
Qed.
Lemma init_pops_home d bl : forall n i h ps h', init_pops S0 n i d bl h = Ok (ps, h') -> List.length ps = n.
Proof.
  induction n as [|n IH]; intros i h ps h' H; cbn [init_pops] in H; [injection H as <- _; auto|].
  apply bind_ok in H as ([[ms s] h1] & _ & H). apply bind_ok in H as ([ps1 h2] & H1 & H). injection H as <- _. cbn. f_equal. eauto.
Qed.
Lemma mapM_length {A B} (f : A -> res B) : forall l l', mapM f l = Ok l' -> List.length l' = List.length l.
Proof.
  induction l as [|x l IH]; intros l' H; cbn in H; [injection H as <-; auto|].
  apply bind_ok in H as (y & _ & H). apply bind_ok in H as (l1 & H1 & H). injection H as <-. cbn. f_equal. auto.
Qed.
Lemma init_home d bl st : init_search S0 d bl = Ok st -> at_home st /\ ss_started st = 0 /\ ss_completed st = 0 /\ ss_order st = sc_order S0 /\ 1 <= npop.
Proof.
  unfold init_search. intros H. apply bind_ok in H as ([ps h] & H1 & H). apply bind_ok in H as (b & Hb & H). apply bind_ok in H as (b1 & Hb1 & H). apply bind_ok in H as (subs & H2 & H).
  injection H as <-. cbn. apply init_pops_home in H1. apply mapM_length in H2. split; [|split; [|split; [|split]]]; auto.
  - unfold at_home. cbn. rewrite map_length. split; [congruence|]. split; [congruence|]. apply Forall_map, Forall_forall. discriminate.
  - destruct ps as [|p ps]; [|cbn in H1; lia]. cbn in Hb. injection Hb as <-. cbn in Hb1. discriminate.
Qed.

(** ** The engine *)

(** [l] is the sequence of populations advanced so far: whole iterations, each in some order, then the part of the present one that is done. *)
Definition rounds (npop : nat) (orders : list (list nat)) (part : list nat) : Prop :=
  Forall (Permutation (seq 0 npop)) orders /\ NoDup part /\ (forall i, In i part -> i < npop).

Record engine_ok (en : engine) (st0 : search_st T) (l : list nat) : Prop := {
  eo_home : at_home (en_st en);
  eo_some : 1 <= npop;
  eo_done : ss_started (en_st en) = List.length l /\ ss_completed (en_st en) = List.length l;
  eo_adv : advances S0 (en_data en) (en_bl en) st0 l (en_st en);
  eo_tasks : (en_iter en = 0 /\ en_tasks en = [] /\ en_next en = 0 /\ l = [])
             \/ (Permutation (seq 0 npop) (en_tasks en) /\ en_next en <= npop
                 /\ exists orders, S (List.length orders) = en_iter en /\ Forall (Permutation (seq 0 npop)) orders
                      /\ l = List.concat orders ++ firstn (en_next en) (en_tasks en));
  eo_iter : en_iter en <= sc_niterations S0 }.

Lemma concat_length_perm (orders : list (list nat)) n : Forall (Permutation (seq 0 n)) orders -> List.length (List.concat orders) = List.length orders * n.
Proof. induction 1 as [|o os Ho _ IH]; cbn; auto. rewrite app_length, IH. apply Permutation_length in Ho. rewrite seq_length in Ho. lia. Qed.

Lemma advances_snoc full bl st0 l st g i st' : advances S0 full bl st0 l st -> advance S0 full bl (with_order st g) i st' -> advances S0 full bl st0 (l ++ [i]) st'.
Proof.
  assert (Hid : forall s : search_st T, with_order s (ss_order s) = s) by (intros []; reflexivity).
  assert (Hww : forall (s : search_st T) g1 g2, with_order (with_order s g1) g2 = with_order s g2) by (intros []; reflexivity).
  induction 1; intros Ha; cbn.
  - rewrite Hww in Ha. econstructor; [exact Ha|]. rewrite <- (Hid st') at 2. constructor.
  - econstructor; eauto.
Qed.
Lemma advances_order full bl st0 l st g : advances S0 full bl st0 l st -> advances S0 full bl st0 l (with_order st g).
Proof.
  assert (Hww : forall (s : search_st T) g1 g2, with_order (with_order s g1) g2 = with_order s g2) by (intros []; reflexivity).
  induction 1; [rewrite Hww; constructor|econstructor; eauto].
Qed.

Lemma engine_new_ok d en : engine_new S0 d = Ok en -> engine_ok en (en_st en) [] /\ en_data en = d /\ baseline_for S0 d = Ok (en_bl en).
Proof.
  unfold engine_new. intros H. apply bind_ok in H as (bl & Hb & H). apply bind_ok in H as (st & Hs & H). injection H as <-. cbn. split; auto.
  apply init_home in Hs as (H1 & H2 & H3 & _ & H4). split; cbn; auto; [|lia].
  assert (Hid : forall s : search_st T, with_order s (ss_order s) = s) by (intros []; reflexivity). rewrite <- (Hid st) at 2. constructor.
Qed.

Definition left_over (l : list nat) : nat := total_cycles S0 - List.length l.

Lemma is_finished_spec en st0 l : engine_ok en st0 l -> is_finished S0 en = (left_over l =? 0).
Proof. intros H. unfold is_finished, left_over. rewrite (proj2 (eo_done _ _ _ H)). reflexivity. Qed.

Lemma prepare_ok en st0 l en' : engine_ok en st0 l -> left_over l <> 0 -> prepare_iteration S0 en = Ok en' ->
  engine_ok en' st0 l /\ en_next en' < List.length (en_tasks en') /\ List.length (en_tasks en') = npop /\ en_iter en' <> 0
  /\ en_data en' = en_data en /\ en_bl en' = en_bl en.
Proof.
  intros Hen Hl Hp. unfold prepare_iteration in Hp. unfold left_over, total_cycles in Hl.
  destruct Hen as [(Hh & Hsub & Hsome) H1 Hd Ha Ht Hi].
  assert (Hlen : forall t, Permutation (seq 0 npop) t -> List.length t = npop).
  { intros t P. apply Permutation_length in P. rewrite seq_length in P. auto. }
  assert (Hcount : (en_iter en = 0 /\ l = []) \/ List.length l + npop = en_iter en * npop + en_next en).
  { destruct Ht as [(? & ? & ? & ?)|(P & Hn & orders & Ho & Hf & ->)]; auto. right.
    rewrite app_length, (concat_length_perm _ _ Hf), firstn_length, (Hlen _ P), <- Ho. lia. }
  destruct (Nat.leb_spec (sc_niterations S0) (en_iter en)) as [Hit|Hit].
  - injection Hp as <-. assert (Ei : en_iter en = sc_niterations S0) by lia.
    destruct Hcount as [[E0 ->]|Hc].
    { rewrite E0 in Ei. rewrite <- Ei in Hl. cbn in Hl. congruence. }
    destruct Ht as [(E0 & _ & _ & ->)|Ht]; [rewrite E0 in Ei; rewrite <- Ei in Hl; cbn in Hl; congruence|]. pose proof Ht as (P & Hn & _).
    rewrite (Hlen _ P). rewrite Ei in Hc. split; [split; auto; split; auto|]. split; [nia|]. split; auto. split; [lia|auto].
  - destruct (negb (List.length (en_tasks en) =? 0) && (en_next en <? List.length (en_tasks en))) eqn:Eb.
    + injection Hp as <-. apply andb_true_iff in Eb as [E1 E2]. apply Nat.ltb_lt in E2. apply negb_true_iff, Nat.eqb_neq in E1.
      destruct Ht as [(_ & E0 & _)|Ht]; [rewrite E0 in E1; cbn in E1; congruence|]. pose proof Ht as (P & Hn & orders & Ho & _).
      split; [split; auto; split; auto|]. split; auto. split; auto. split; auto. lia.
    + apply bind_ok in Hp as ([order g] & Hs & Hp). injection Hp as <-. cbn.
      destruct (C36_shuffle_is_permutation (ss_order (en_st en)) (seq 0 (List.length (ss_pops (en_st en))))) as (o2 & g2 & Es & P). rewrite Es in Hs. injection Hs as -> ->.
      rewrite Hh in P. split; [|rewrite (Hlen _ P); split; [lia|split; [auto|split; [lia|auto]]]].
      split; cbn; auto; [split; auto|apply advances_order; auto| |lia].
      right. split; auto. split; [lia|]. destruct Ht as [(E0 & E1 & E2 & ->)|(P0 & Hn & orders & Ho & Hf & Hl')].
      * exists []. rewrite E0. cbn. auto.
      * exists (orders ++ [en_tasks en]). rewrite app_length. cbn. split; [lia|]. split; [apply Forall_app; auto|].
        rewrite concat_app. cbn. rewrite !app_nil_r, Hl'. f_equal.
        apply firstn_all2. rewrite (Hlen _ P0) in *. apply andb_false_iff in Eb as [Eb|Eb].
        -- apply negb_false_iff, Nat.eqb_eq in Eb. lia.
        -- apply Nat.ltb_ge in Eb. lia.
Qed.

Lemma firstn_S_nth {A} (l : list A) n x : nth_error l n = Some x -> firstn (S n) l = firstn n l ++ [x].
Proof. revert n. induction l as [|y l IH]; intros [|n] H; try discriminate; cbn in *; [congruence|]. f_equal. auto. Qed.

Lemma step_one_ok en st0 l en' more : engine_ok en st0 l -> step_one_cycle S0 en = Ok (en', more) ->
  (more = false /\ left_over l = 0 /\ en' = en)
  \/ (more = true /\ left_over l <> 0 /\ exists i, i < npop /\ engine_ok en' st0 (l ++ [i]) /\ en_data en' = en_data en /\ en_bl en' = en_bl en).
Proof.
  intros Hen Hs. unfold step_one_cycle in Hs. rewrite (is_finished_spec _ _ _ Hen) in Hs. destruct (Nat.eqb_spec (left_over l) 0) as [E0|E0].
  { injection Hs as <- <-. auto. }
  right. apply bind_ok in Hs as (en1 & Hp & Hs). destruct (prepare_ok _ _ _ _ Hen E0 Hp) as (H1 & Hn & Hlt & Hit & Hd & Hb).
  rewrite (is_finished_spec _ _ _ H1) in Hs. apply Nat.eqb_neq in E0. rewrite E0 in Hs. apply Nat.eqb_neq in E0.
  apply bind_ok in Hs as (i & Hi & Hs). unfold index in Hi. destruct (nth_error (en_tasks en1) (en_next en1)) eqn:En; [|discriminate]. cbn in Hi. injection Hi as ->.
  cbv zeta in Hs. apply bind_ok in Hs as (o & Ho & Hs).
  destruct H1 as [Hh H1 Hdone Ha Ht Hiter]. destruct Ht as [(Ez & _)|(P & Hle & orders & Horders & Hf & ->)]; [congruence|].
  assert (Hin : i < npop).
  { apply nth_error_In in En. apply Permutation_sym in P. apply (Permutation_in _ P), in_seq in En. lia. }
  destruct o as [[st1 t]|].
  - apply bind_ok in Hs as (r & Hr & Hs). apply bind_ok in Hs as (st2 & Hst & Hs). injection Hs as <- <-. split; auto. split; auto.
    exists i. split; auto. cbn. split; [|auto].
    assert (Hadv : advance S0 (en_data en1) (en_bl en1) (with_order (en_st en1) (ss_order (en_st en1))) i st2).
    { replace (with_order (en_st en1) (ss_order (en_st en1))) with (en_st en1) by (destruct (en_st en1); reflexivity). exists st1, t, r. auto. }
    pose proof (advances_snoc _ _ _ _ _ _ _ _ Ha Hadv) as Ha'.
    assert (Hadv' : advance S0 (en_data en1) (en_bl en1) (en_st en1) i st2) by (exists st1, t, r; auto).
    destruct (advance_home _ _ _ _ _ Hh Hadv') as (Hh' & Hs1 & Hc1 & _).
    split; cbn; auto.
    + rewrite Hs1, Hc1, (app_length _ [i]). cbn. destruct Hdone as [-> ->]. auto.
    + right. split; auto. split; [lia|]. exists orders. split; auto. split; auto. rewrite <- app_assoc. f_equal.
      rewrite Nat.add_1_r. symmetry. apply firstn_S_nth. auto.
  - exfalso. apply dispatch_none in Ho. destruct Hh as (_ & _ & Hsome). rewrite Forall_forall in Hsome. apply (Hsome None); auto. eapply nth_error_In; eauto.
Qed.

Lemma step_loop_ok : forall n en st0 l c en' c', engine_ok en st0 l -> step_loop S0 n en c = Ok (en', c') ->
  exists l', engine_ok en' st0 (l ++ l') /\ List.length l' = Nat.min n (left_over l) /\ c' = c + List.length l' /\ en_data en' = en_data en /\ en_bl en' = en_bl en.
Proof.
  induction n as [|n IH]; intros en st0 l c en' c' Hen Hs; cbn [step_loop] in Hs.
  - injection Hs as <- <-. exists []. rewrite app_nil_r. cbn. auto.
  - apply bind_ok in Hs as ([en1 more] & H1 & Hs). destruct (step_one_ok _ _ _ _ _ Hen H1) as [(-> & E0 & ->)|(-> & E0 & i & Hi & Hen1 & Hd & Hb)].
    + injection Hs as <- <-. exists []. rewrite app_nil_r, E0. cbn. auto.
    + apply (IH _ _ _ _ _ _ Hen1) in Hs as (l' & Hen' & Hl & Hc & Hd' & Hb'). exists (i :: l').
      rewrite <- app_assoc in Hen'. cbn in Hen'. split; auto. cbn [List.length]. unfold left_over in *. rewrite app_length in Hl. cbn in Hl.
      split; [lia|]. split; [lia|]. split; congruence.
Qed.
Lemma steps_ok : forall ns en st0 l en' ks, engine_ok en st0 l -> steps S0 en ns = Ok (en', ks) ->
  exists l', engine_ok en' st0 (l ++ l') /\ List.length l' = Nat.min (sum ns) (left_over l) /\ sum ks = List.length l' /\ en_data en' = en_data en /\ en_bl en' = en_bl en.
Proof.
  induction ns as [|n ns IH]; intros en st0 l en' ks Hen Hs; cbn [steps] in Hs.
  - injection Hs as <- <-. exists []. rewrite app_nil_r. cbn. auto.
  - apply bind_ok in Hs as ([en1 k] & H1 & Hs). apply bind_ok in Hs as ([en2 ks2] & H2 & Hs). injection Hs as <- <-.
    apply (step_loop_ok _ _ _ _ _ _ _ Hen) in H1 as (l1 & Hen1 & L1 & -> & Hd1 & Hb1). apply (IH _ _ _ _ _ Hen1) in H2 as (l2 & Hen2 & L2 & E2 & Hd2 & Hb2).
    exists (l1 ++ l2). rewrite app_assoc. split; auto. rewrite app_length. cbn [sum fold_right]. unfold left_over in *. rewrite app_length in L2.
    change (fold_right Nat.add 0 ns) with (sum ns). change (fold_right Nat.add 0 ks2) with (sum ks2).
    split; [lia|]. split; [lia|]. split; congruence.
Qed.

Lemma count_perm i t : i < npop -> Permutation (seq 0 npop) t -> count t i = 1.
Proof.
  intros Hi P. unfold count. rewrite <- (proj1 (Permutation_count_occ Nat.eq_dec _ _) P).
  apply NoDup_count_occ'; [apply seq_NoDup|apply in_seq; lia].
Qed.
Lemma count_concat i orders : i < npop -> Forall (Permutation (seq 0 npop)) orders -> count (List.concat orders) i = List.length orders.
Proof.
  intros Hi. induction 1 as [|o os Ho _ IH]; auto. cbn [List.concat List.length]. unfold count in *. rewrite count_occ_app, IH.
  pose proof (count_perm i o Hi Ho) as Hc. unfold count in Hc. lia.
Qed.
Lemma count_part i t n : NoDup t -> count (firstn n t) i <= 1.
Proof.
  intros Hn. unfold count. apply NoDup_count_occ. rewrite <- (firstn_skipn n t) in Hn. clear - Hn. induction (firstn n t); [constructor|].
  cbn in Hn. inversion Hn; subst. constructor; auto. intros Hc. apply H1. apply in_or_app. auto.
Qed.
End Search.

(** ** C37 *)

(** Any calls of step perform min(requested, niterations * populations) cycles in all; the cycles take the populations in rounds, so at any time
    two populations differ by at most one cycle, and after the last each has been advanced exactly niterations times. *)
Theorem C37_cycles : forall (T W : Type) (S0 : search_cfg T W) d en0 ns en ks,
  engine_new S0 d = Ok en0 -> steps S0 en0 ns = Ok (en, ks) ->
  exists l, advances S0 d (en_bl en0) (en_st en0) l (en_st en)
    /\ sum ks = List.length l /\ List.length l = Nat.min (sum ns) (sc_niterations S0 * sc_populations S0)
    /\ ss_completed (en_st en) = List.length l
    /\ (forall i, In i l -> i < sc_populations S0)
    /\ (forall i j, i < sc_populations S0 -> j < sc_populations S0 -> count l i <= count l j + 1)
    /\ (sc_niterations S0 * sc_populations S0 <= sum ns ->
        is_finished S0 en = true /\ forall i, i < sc_populations S0 -> count l i = sc_niterations S0).
Proof.
  intros T W S0 d en0 ns en ks Hn Hs. apply engine_new_ok in Hn as (H0 & Hd & _).
  destruct (steps_ok S0 _ _ _ _ _ _ H0 Hs) as (l & Hen & L1 & L2 & Hd' & Hb'). rewrite Hd, <- Hb' in *. cbn [app] in Hen.
  exists l. unfold left_over, total_cycles in L1. cbn [List.length] in L1. rewrite Nat.sub_0_r in L1.
  pose proof (is_finished_spec S0 _ _ _ Hen) as Hfin.
  destruct Hen as [Hh Hsome Hdone Ha Ht Hit]. rewrite Hd' in Ha. split; auto. split; auto. split; auto. split; [apply Hdone|].
  destruct Ht as [(E0 & E1 & E2 & ->)|(P & Hle & orders & Ho & Hf & Hl)].
  - split; [intros i []|]. split; [cbn; auto|]. intros Hge. rewrite Nat.min_r in L1 by lia. cbn in L1.
    assert (sc_niterations S0 = 0) by nia. split; [rewrite Hfin; unfold left_over, total_cycles; cbn; apply Nat.eqb_eq; lia|]. intros i _. cbn. lia.
  - assert (Ep : forall i, i < sc_populations S0 -> count l i = List.length orders + count (firstn (en_next en) (en_tasks en)) i).
    { intros i Hi. subst l. unfold count. rewrite count_occ_app. f_equal. apply (count_concat S0); auto. }
    assert (Hnd : NoDup (en_tasks en)) by (eapply Permutation_NoDup; [exact P|apply seq_NoDup]).
    pose proof (Permutation_length P) as Hlen. rewrite seq_length in Hlen.
    split; [|split].
    + intros i Hi. subst l. apply in_app_or in Hi as [Hi|Hi].
      * apply in_concat in Hi as (o & Ho1 & Ho2). rewrite Forall_forall in Hf. specialize (Hf o Ho1). apply Permutation_sym in Hf.
        apply (Permutation_in _ Hf), in_seq in Ho2. lia.
      * assert (In i (en_tasks en)) as Hi2 by (rewrite <- (firstn_skipn (en_next en)); apply in_or_app; auto).
        apply Permutation_sym in P. apply (Permutation_in _ P), in_seq in Hi2. lia.
    + intros i j Hi Hj. rewrite !Ep by auto. pose proof (count_part i (en_tasks en) (en_next en) Hnd). lia.
    + intros Hge. rewrite Nat.min_r in L1 by lia. split; [rewrite Hfin; unfold left_over, total_cycles; rewrite L1; apply Nat.eqb_eq; lia|].
      intros i Hi. rewrite Ep by auto.
      assert (Hll : List.length l = List.length orders * sc_populations S0 + en_next en).
      { subst l. rewrite app_length, (concat_length_perm _ _ Hf), firstn_length. lia. }
      assert (Hall : en_next en = sc_populations S0 /\ S (List.length orders) = sc_niterations S0) by nia. destruct Hall as [En Eo].
      rewrite firstn_all2 by lia. rewrite (count_perm S0 i _ Hi P). lia.
Qed.

(** However the cycles are split over calls, the engine ends in the same state and the same number is reported in all. *)
Theorem C37_split : forall (T W : Type) (S0 : search_cfg T W) (en : engine) a b,
  step S0 en (a + b) = (let! (en1, k1) := step S0 en a in let! (en2, k2) := step S0 en1 b in Ok (en2, k1 + k2)).
Proof.
  intros T W S0. unfold step.
  assert (Hacc : forall n en c, step_loop S0 n en c = (let! (en2, k) := step_loop S0 n en 0 in Ok (en2, c + k))).
  { induction n as [|n IH]; intros en c; cbn [step_loop].
    - cbn. now rewrite Nat.add_0_r.
    - destruct (step_one_cycle S0 en) as [[en1 [|]]| |]; cbn [bind]; auto.
      + rewrite (IH en1 (c + 1)), (IH en1 (0 + 1)). destruct (step_loop S0 n en1 0) as [[en2 k]| |]; cbn; auto. do 2 f_equal. lia.
      + now rewrite Nat.add_0_r. }
  assert (Hfin : forall en en1, step_one_cycle S0 en = Ok (en1, false) -> forall n, step_loop S0 n en1 0 = Ok (en1, 0)).
  { intros en en1 H. assert (Hf : is_finished S0 en1 = true).
    { unfold step_one_cycle in H. destruct (is_finished S0 en) eqn:E0; [injection H as <-; auto|].
      apply bind_ok in H as (en2 & Hp & H). destruct (is_finished S0 en2) eqn:E2; [injection H as <-; auto|].
      exfalso. apply bind_ok in H as (i & _ & H). cbv zeta in H. apply bind_ok in H as ([[st t]|] & _ & H); [|discriminate].
      apply bind_ok in H as (r & _ & H). apply bind_ok in H as (st2 & _ & H). discriminate. }
    intros [|n]; auto. cbn [step_loop]. unfold step_one_cycle. rewrite Hf. reflexivity. }
  intros en a. revert en. induction a as [|a IH]; intros en b; cbn [Nat.add step_loop].
  - cbn. destruct (step_loop S0 b en 0) as [[]| |]; reflexivity.
  - destruct (step_one_cycle S0 en) as [[en1 [|]]| |] eqn:E1; cbn [bind]; auto.
    + rewrite (Hacc (a + b) en1 1), (Hacc a en1 1), IH. destruct (step_loop S0 a en1 0) as [[en2 k]| |]; cbn [bind]; auto.
      destruct (step_loop S0 b en2 0) as [[en3 k3]| |]; cbn [bind]; auto.
    + rewrite (Hfin en en1); auto.
Qed.

(** After completion a step does nothing. *)
Theorem C37_finished : forall (T W : Type) (S0 : search_cfg T W) (en : engine) n,
  is_finished S0 en = true -> step S0 en n = Ok (en, 0).
Proof. intros T W S0 en [|n] H; auto. unfold step. cbn [step_loop]. unfold step_one_cycle. rewrite H. reflexivity. Qed.

(** Running to completion is stepping by at least niterations * populations, and terminates. *)
Theorem C37_run_to_completion : forall (T W : Type) (S0 : search_cfg T W) d en0 n fuel,
  engine_new S0 d = Ok en0 -> sc_niterations S0 * sc_populations S0 <= n -> sc_niterations S0 * sc_populations S0 < fuel ->
  run_loop S0 fuel en0 = (let! (en, _) := step S0 en0 n in Ok en).
Proof.
  intros T W S0 d en0 n fuel Hn Hle Hf. apply engine_new_ok in Hn as (H0 & _).
  assert (G : forall fuel n en l c, engine_ok S0 en (en_st en0) l -> left_over S0 l < fuel -> left_over S0 l <= n ->
    run_loop S0 fuel en = (let! (en, _) := step_loop S0 n en c in Ok en)).
  { clear. induction fuel as [|fuel IH]; intros n en l c Hen Hf Hn; [lia|]. cbn [run_loop]. destruct n as [|n].
    - cbn [step_loop bind]. unfold step_one_cycle. rewrite (is_finished_spec _ _ _ _ Hen). replace (left_over S0 l) with 0 by lia. reflexivity.
    - cbn [step_loop]. destruct (step_one_cycle S0 en) as [[en1 more]| |] eqn:E1; cbn [bind]; auto.
      destruct (step_one_ok S0 _ _ _ _ _ Hen E1) as [(-> & _)|(-> & E0 & i & _ & Hen1 & _)]; auto.
      unfold left_over in *. apply (IH _ _ _ (c + 1) Hen1); unfold left_over; rewrite app_length; cbn; lia. }
  apply (G fuel n en0 [] 0 H0); unfold left_over, total_cycles; cbn; lia.
Qed.

(** ** C38 *)

(** What a trace of the coordinator contains. *)
Fixpoint dispatched (es : list event) : list nat :=
  match es with [] => [] | Dispatch i _ :: es' => i :: dispatched es' | _ :: es' => dispatched es' end.
Fixpoint limits (es : list event) : list nat :=
  match es with [] => [] | Dispatch _ c :: es' => c :: limits es' | _ :: es' => limits es' end.
Fixpoint delivered (es : list event) : list nat :=
  match es with [] => [] | Deliver i :: es' => i :: delivered es' | _ :: es' => delivered es' end.
Fixpoint started (es : list event) : nat :=
  match es with [] => 0 | NewIteration :: es' => S (started es') | _ :: es' => started es' end.

Section Coord.
Context {T W : Type} (S0 : search_cfg T W) (full : dataset T) (bl : option T) (nw : nat).
Local Notation npop := (sc_populations S0).
Local Notation flight c := (map tk_idx (co_flight c)).

Record coord_ok (c : @coord T) (es : list event) : Prop := {
  ck_len : List.length (ss_pops (co_st c)) = npop /\ List.length (ss_subs (co_st c)) = npop;
  ck_taken : forall i, i < npop -> (nth_error (ss_pops (co_st c)) i = Some None <-> In i (flight c));
  ck_nodup : NoDup (flight c ++ co_tasks c);
  ck_range : forall i, In i (flight c ++ co_tasks c) -> i < npop;
  ck_workers : List.length (co_flight c) <= nw;
  ck_counts : forall i, i < npop -> count (delivered es) i + count (flight c ++ co_tasks c) i + co_left c = sc_niterations S0;
  ck_delivered : forall i, In i (delivered es) -> i < npop;
  ck_started : ss_started (co_st c) = List.length (dispatched es) /\ ss_completed (co_st c) = List.length (delivered es);
  ck_dispatched : Permutation (dispatched es) (delivered es ++ flight c);
  ck_iter : started es + co_left c = sc_niterations S0;
  ck_total : List.length (delivered es) + List.length (co_flight c) + List.length (co_tasks c) + co_left c * npop = sc_niterations S0 * npop;
  ck_length : List.length es = started es + List.length (dispatched es) + List.length (delivered es);
  ck_limits : forall k cur, nth_error (limits es) k = Some cur ->
    get_cur_maxsize (sc_F32 S0) (sc_of32 S0) (sc_floor32 S0) (sc_warmup_by S0) (sel_maxsize (eo_sel (sc_E S0))) (total_cycles S0) (total_cycles S0 - k) = Ok cur;
  ck_nlimits : List.length (limits es) = List.length (dispatched es) }.

Lemma dispatched_app a b : dispatched (a ++ b) = dispatched a ++ dispatched b.
Proof. induction a as [|[] a IH]; cbn; auto. f_equal. auto. Qed.
Lemma limits_app a b : limits (a ++ b) = limits a ++ limits b.
Proof. induction a as [|[] a IH]; cbn; auto. f_equal. auto. Qed.
Lemma delivered_app a b : delivered (a ++ b) = delivered a ++ delivered b.
Proof. induction a as [|[] a IH]; cbn; auto. f_equal. auto. Qed.
Lemma started_app a b : started (a ++ b) = started a + started b.
Proof. induction a as [|[] a IH]; cbn; auto. Qed.

Lemma start_ok st : at_home S0 st -> ss_started st = 0 -> ss_completed st = 0 -> coord_ok (parallel_start S0 st) [].
Proof.
  intros (H1 & H2 & H3) H4 H5. unfold parallel_start. split; cbn; auto; try lia; try tauto.
  - intros i Hi. split; [|tauto]. intros Hn. rewrite Forall_forall in H3. apply (H3 None); auto. eapply nth_error_In; eauto.
  - constructor.
  - intros [|k] cur; discriminate.
Qed.

Lemma cstep_ok c1 e c2 es : coord_ok c1 es -> cstep S0 full bl nw c1 e c2 -> coord_ok c2 (es ++ [e]) /\ forall i, e <> Skip i.
Proof.
  intros [[K1 K1'] K2 K3 K4 K5 K6 Kd [K7 K7'] K8 K9 K10 K11 K12 K13] Hs. inversion Hs; subst; cbn [co_st co_left co_tasks co_flight] in *.
  - (* NewIteration *)
    split; [|discriminate]. destruct (C36_shuffle_is_permutation (ss_order st) (seq 0 (List.length (ss_pops st)))) as (o2 & g2 & Es & P). rewrite Es in H. injection H as <- <-.
    rewrite K1 in P. pose proof (Permutation_length P) as Hl. rewrite seq_length in Hl.
    assert (Hnd : NoDup o2) by (eapply Permutation_NoDup; [exact P|apply seq_NoDup]).
    split; cbn [co_st co_left co_tasks co_flight map List.app List.length ss_pops ss_subs ss_started ss_completed with_order] in *;
      rewrite ?dispatched_app, ?delivered_app, ?started_app, ?limits_app, ?app_length; cbn [dispatched delivered started limits List.length]; rewrite ?app_nil_r in *; auto; try lia.
    + intros i Hi. apply Permutation_sym in P. apply (Permutation_in _ P), in_seq in Hi. lia.
    + intros i Hi. specialize (K6 i Hi). rewrite (count_perm S0 i o2 Hi P). unfold count in *. cbn in K6. lia.
  - (* Skip *)
    exfalso. apply dispatch_none in H0. assert (Hi : i < npop) by (apply K4, in_or_app; right; left; reflexivity). apply (K2 i Hi) in H0.
    apply NoDup_remove_2 in K3. apply K3, in_or_app. auto.
  - (* Dispatch *)
    split; [|discriminate].
    apply dispatch_some in H0 as (D1 & D2 & D3 & D4 & _ & _ & _ & D5 & D6 & D7 & _ & D8).
    assert (Hi : i < npop) by (apply K4, in_or_app; right; left; reflexivity).
    pose proof (Permutation_middle (map tk_idx fl) tasks i) as PM.
    assert (Pf : Permutation (map tk_idx fl ++ i :: tasks) ((map tk_idx fl ++ [i]) ++ tasks)) by (rewrite <- app_assoc; apply Permutation_refl).
    split; cbn [co_st co_left co_tasks co_flight] in *; rewrite ?map_app; cbn [map]; rewrite ?D2;
      rewrite ?dispatched_app, ?delivered_app, ?started_app, ?limits_app, ?app_length; cbn [dispatched delivered started limits List.length]; rewrite ?app_nil_r in *; auto; try lia.
    + rewrite D3, D4, upd_length. auto.
    + intros j Hj. rewrite D3. destruct (Nat.eq_dec i j) as [->|Hn].
      * split; [intros _; apply in_or_app; right; left; auto|]. intros _. apply nth_error_upd_same. lia.
      * rewrite nth_error_upd_other by auto. rewrite (K2 j Hj). rewrite in_app_iff. cbn. tauto.
    + eapply Permutation_NoDup; eauto.
    + intros j Hj. apply K4. apply (Permutation_in _ (Permutation_sym Pf)). auto.
    + intros j Hj. rewrite <- (K6 j Hj). do 2 f_equal. unfold count. symmetry. apply Permutation_count_occ. auto.
    + rewrite app_assoc. apply Permutation_app; auto.
    + cbn in *. lia.
    + intros k cur Hk. destruct (Nat.lt_ge_cases k (List.length (limits es))) as [Hlt|Hge].
      * rewrite nth_error_app1 in Hk by auto. auto.
      * rewrite nth_error_app2 in Hk by auto. destruct (k - List.length (limits es)) as [|[|]] eqn:Ek; try discriminate.
        cbn in Hk. injection Hk as <-. rewrite <- D8. do 2 f_equal. lia.
  - (* Deliver *)
    split; [|discriminate]. apply execute_idx in H0 as [He _]. apply apply_frame in H1 as (ps & A1 & A2 & A3 & A4 & A5 & A6 & A7 & _). rewrite He in *.
    assert (Pm : Permutation (map tk_idx (fl1 ++ t :: fl2) ++ tasks) (tk_idx t :: map tk_idx (fl1 ++ fl2) ++ tasks)).
    { rewrite !map_app. cbn [map]. rewrite <- !app_assoc. cbn [app]. apply Permutation_sym, Permutation_middle. }
    assert (Ht : In (tk_idx t) (map tk_idx (fl1 ++ t :: fl2))) by (apply in_map, in_or_app; right; left; auto).
    assert (Hi : tk_idx t < npop) by lia.
    pose proof (Permutation_NoDup Pm K3) as K3'. inversion K3' as [|? ? Hnin Hnd]; subst.
    split; cbn [co_st co_left co_tasks co_flight] in *;
      rewrite ?dispatched_app, ?delivered_app, ?started_app, ?limits_app; cbn [dispatched delivered started limits List.length]; rewrite ?app_nil_r in *; auto; try lia.
    + rewrite A1, A3, !upd_length. auto.
    + intros j Hj. rewrite A1. destruct (Nat.eq_dec (tk_idx t) j) as [<-|Hn].
      * rewrite nth_error_upd_same by auto. split; [discriminate|]. intros Hc. exfalso. apply Hnin, in_or_app. auto.
      * rewrite nth_error_upd_other by auto. rewrite (K2 j Hj), !map_app, !in_app_iff. cbn. intuition congruence.
    + intros j Hj. apply K4. apply (Permutation_in _ (Permutation_sym Pm)). right. auto.
    + rewrite app_length in *. cbn in *. lia.
    + intros j Hj. specialize (K6 j Hj). unfold count in *. rewrite (proj1 (Permutation_count_occ Nat.eq_dec _ _) Pm) in K6. rewrite count_occ_app. cbn in *.
      destruct (Nat.eq_dec (tk_idx t) j); lia.
    + intros j Hj. apply in_app_or in Hj as [Hj|[<-|[]]]; auto.
    + rewrite A5, A6, app_length. cbn. lia.
    + rewrite <- app_assoc. cbn. rewrite K8. apply Permutation_app; auto. rewrite !map_app. cbn. apply Permutation_sym, Permutation_middle.
    + rewrite !app_length in *. cbn in *. lia.
    + rewrite !app_length. cbn. lia.
Qed.

Lemma csteps_ok c1 es c2 es0 : coord_ok c1 es0 -> csteps S0 full bl nw c1 es c2 -> coord_ok c2 (es0 ++ es) /\ forall i, ~ In (Skip i) es.
Proof.
  intros H Hc. revert es0 H. induction Hc as [c|c1 e c2 es c3 H1 _ IH]; intros es0 H.
  - rewrite app_nil_r. auto.
  - destruct (cstep_ok _ _ _ _ H H1) as [H2 Hs]. apply IH in H2 as [H2 Hs2]. rewrite <- app_assoc in H2. cbn in H2. split; auto.
    intros i [->|Hi]; [eapply Hs; eauto|eapply Hs2; eauto].
Qed.
End Coord.

(** Whatever the order in which results arrive: never more tasks than workers; no population is in two tasks, and one is missing from the pool
    exactly while its task is in flight; a task is dispatched with the size limit of its number; nothing is skipped. *)
Theorem C38_no_population_lost : forall (T W : Type) (S0 : search_cfg T W) d bl threads st0 es c,
  init_search S0 d bl = Ok st0 -> csteps S0 d bl (n_workers S0 threads) (parallel_start S0 st0) es c ->
  List.length (co_flight c) <= n_workers S0 threads
  /\ NoDup (map tk_idx (co_flight c))
  /\ (forall i, i < sc_populations S0 -> (nth_error (ss_pops (co_st c)) i = Some None <-> In i (map tk_idx (co_flight c))))
  /\ Permutation (dispatched es) (delivered es ++ map tk_idx (co_flight c))
  /\ ss_completed (co_st c) = List.length (delivered es)
  /\ (forall k cur, nth_error (limits es) k = Some cur ->
        get_cur_maxsize (sc_F32 S0) (sc_of32 S0) (sc_floor32 S0) (sc_warmup_by S0) (sel_maxsize (eo_sel (sc_E S0)))
          (sc_niterations S0 * sc_populations S0) (sc_niterations S0 * sc_populations S0 - k) = Ok cur)
  /\ (forall i, ~ In (Skip i) es).
Proof.
  intros T W S0 d bl th st0 es c Hi Hc. apply init_home in Hi as (H1 & H2 & H3 & _).
  destruct (csteps_ok S0 d bl _ _ _ _ [] (start_ok S0 _ st0 H1 H2 H3) Hc) as [[] Hs]. cbn [List.app] in *.
  split; auto. split. { clear - ck_nodup0. induction (map tk_idx (co_flight c)); [constructor|]. cbn in ck_nodup0. inversion ck_nodup0; subst. constructor; auto. intros Hn. apply H1, in_or_app. auto. }
  split; auto. split; auto. split; [apply ck_started0|]. split; auto.
Qed.

(** When the coordinator finishes, every population has been advanced exactly niterations times and all are back. *)
Theorem C38_every_population_advanced : forall (T W : Type) (S0 : search_cfg T W) d bl threads st0 es c,
  init_search S0 d bl = Ok st0 -> csteps S0 d bl (n_workers S0 threads) (parallel_start S0 st0) es c -> finished c ->
  (forall i, i < sc_populations S0 -> count (delivered es) i = sc_niterations S0)
  /\ ss_completed (co_st c) = sc_niterations S0 * sc_populations S0
  /\ List.length (ss_pops (co_st c)) = sc_populations S0 /\ (forall p, In p (ss_pops (co_st c)) -> p <> None).
Proof.
  intros T W S0 d bl th st0 es c Hi Hc (F1 & F2 & F3). apply init_home in Hi as (H1 & H2 & H3 & _).
  destruct (csteps_ok S0 d bl _ _ _ _ [] (start_ok S0 _ st0 H1 H2 H3) Hc) as [[] Hs]. cbn [List.app] in *. rewrite F1, F2, F3 in *. cbn in *.
  split; [|split; [|split]].
  - intros i Hlt. specialize (ck_counts0 i Hlt). unfold count in *. cbn in ck_counts0. lia.
  - rewrite (proj2 ck_started0). lia.
  - apply ck_len0.
  - intros p Hp ->. apply In_nth_error in Hp as (i & Hp). apply ck_taken0 in Hp; auto. rewrite <- (proj1 ck_len0). apply nth_error_Some. congruence.
Qed.

(** No run is longer than niterations * (2 * populations + 1) actions, and a run that is not finished can go on whenever the tasks in flight return
    results that can be applied (and the size limit is defined): the coordinator never waits for a result that no task will send. *)
Theorem C38_terminates : forall (T W : Type) (S0 : search_cfg T W) d bl threads st0 es c,
  init_search S0 d bl = Ok st0 -> csteps S0 d bl (n_workers S0 threads) (parallel_start S0 st0) es c ->
  List.length es <= sc_niterations S0 * (2 * sc_populations S0 + 1)
  /\ (finished c \/
      ((forall t, In t (co_flight c) -> exists r st', execute_task S0 d bl t = Ok r /\ apply_task_result S0 (co_st c) r = Ok st') ->
       (forall k, exists cur, get_cur_maxsize (sc_F32 S0) (sc_of32 S0) (sc_floor32 S0) (sc_warmup_by S0) (sel_maxsize (eo_sel (sc_E S0)))
          (total_cycles S0) (total_cycles S0 - k) = Ok cur) ->
       exists e c', cstep S0 d bl (n_workers S0 threads) c e c')).
Proof.
  intros T W S0 d bl th st0 es c Hi Hc. apply init_home in Hi as (H1 & H2 & H3 & _).
  destruct (csteps_ok S0 d bl _ _ _ _ [] (start_ok S0 _ st0 H1 H2 H3) Hc) as [[] Hs]. cbn [List.app] in *. split.
  - apply Permutation_length in ck_dispatched0. rewrite app_length, map_length in ck_dispatched0. nia.
  - destruct c as [st n tasks fl]. cbn [co_st co_left co_tasks co_flight] in *. destruct tasks as [|i tasks].
    + destruct fl as [|t fl].
      * destruct n as [|n]; [left; repeat split|]. right. intros _ _.
        destruct (C36_shuffle_is_permutation (ss_order st) (seq 0 (List.length (ss_pops st)))) as (o2 & g2 & Es & _). do 2 eexists. apply CNew. exact Es.
      * right. intros Ht _. destruct (Ht t) as (r & st' & Hr & Ha); [left; auto|]. do 2 eexists.
        apply (CDeliver S0 d bl _ st n [] [] t fl r st'); auto.
    + right. intros Ht Hcur. destruct (Nat.lt_ge_cases (List.length fl) (n_workers S0 th)) as [Hlt|Hge].
      * assert (Hin : i < sc_populations S0) by (apply ck_range0, in_or_app; right; left; auto).
        destruct (Hcur (ss_started st)) as (cur & Ecur).
        destruct (dispatch S0 st i) as [[[st' t]|]| |] eqn:Ed.
        -- do 2 eexists. eapply CDispatch; eauto.
        -- do 2 eexists. eapply CSkip; eauto.
        -- exfalso. unfold dispatch, index in Ed. destruct (nth_error (ss_pops st) i) as [p|] eqn:En; [|apply nth_error_None in En; lia].
           cbn [expect bind] in Ed. destruct p as [ps|]; [|discriminate]. unfold set_index in Ed. destruct (Nat.ltb_spec i (List.length (ss_pops st))); [|lia].
           cbn [bind] in Ed. rewrite Ecur in Ed. discriminate.
        -- exfalso. unfold dispatch, index in Ed. destruct (nth_error (ss_pops st) i) as [p|] eqn:En; [|apply nth_error_None in En; lia].
           cbn [expect bind] in Ed. destruct p as [ps|]; [|discriminate]. unfold set_index in Ed. destruct (Nat.ltb_spec i (List.length (ss_pops st))); [|lia].
           cbn [bind] in Ed. rewrite Ecur in Ed. discriminate.
      * destruct fl as [|t fl]; [unfold n_workers in Hge; cbn [List.length] in Hge; lia|].
        destruct (Ht t) as (r & st' & Hr & Ha); [left; auto|]. do 2 eexists.
        apply (CDeliver S0 d bl _ st n (i :: tasks) [] t fl r st'); auto.
Qed.

(** But if a task panics, the search never finishes: nothing is ever received for that task, and the coordinator, which keeps its own copy of the
    sending end of the channel, waits for it forever. *)
Theorem C38_panic_hangs_refuted : forall (T W : Type) (S0 : search_cfg T W) d bl nw c es c' t,
  csteps S0 d bl nw c es c' -> In t (co_flight c) -> (forall r, execute_task S0 d bl t <> Ok r) ->
  In t (co_flight c') /\ ~ finished c'.
Proof.
  intros T W S0 d bl nw c es c' t Hc Hin Ht.
  assert (G : In t (co_flight c')).
  { induction Hc as [c|c1 e c2 es c3 H1 _ IH]; auto. apply IH. inversion H1; subst; cbn in *; auto.
    - apply in_or_app. auto.
    - apply in_app_or in Hin as [Hin|[->|Hin]]; try (apply in_or_app; auto). exfalso. eapply Ht; eauto. }
  split; auto. intros (_ & _ & E). rewrite E in G. destruct G.
Qed.

(** With one worker the parallel search and the stepwise engine do the same, down to the last bit of state. *)
Section One.
Context {T W : Type} (S0 : search_cfg T W) (d : dataset T) (bl : option T).
Local Notation npop := (sc_populations S0).

Definition alike (c : @coord T) (en : @engine T) : Prop :=
  en_st en = co_st c /\ en_data en = d /\ en_bl en = bl /\ co_flight c = [] /\ skipn (en_next en) (en_tasks en) = co_tasks c
  /\ en_iter en + co_left c = sc_niterations S0.

Lemma skipn_nil_len {A} n (l : list A) : skipn n l = [] -> List.length l <= n.
Proof. intros H. apply (f_equal (@List.length A)) in H. rewrite skipn_length in H. cbn in H. lia. Qed.
Lemma skipn_cons_nth {A} n (l : list A) x r : skipn n l = x :: r -> nth_error l n = Some x /\ skipn (n + 1) l = r /\ n < List.length l.
Proof.
  revert n. induction l as [|y l IH]; intros [|n] H; try discriminate; cbn in *.
  - injection H as -> ->. split; auto. split; auto. lia.
  - apply IH in H as (? & ? & ?). split; auto. split; auto. lia.
Qed.

Lemma one_worker : 1 <= npop -> forall k es c0 es0 c en, List.length es <= k -> csteps S0 d bl 1 c0 es c -> finished c -> coord_ok S0 1 c0 es0 -> alike c0 en ->
  exists fuel en', run_loop S0 fuel en = Ok en' /\ en_st en' = co_st c.
Proof.
  intros Hp. induction k as [|k IH]; intros es c0 es0 c en Hk Hc Hf Hok Hal.
  - destruct es; [|cbn in Hk; lia]. inversion Hc; subst. destruct Hf as (F1 & F2 & F3). destruct Hok. destruct Hal as (A1 & A2 & A3 & A4 & A5 & A6).
    exists 1, en. split; auto. cbn [run_loop]. unfold step_one_cycle, is_finished, total_cycles. rewrite A1, (proj2 ck_started0).
    rewrite F1, F2, F3 in ck_total0. cbn in ck_total0. replace (_ =? 0) with true; [reflexivity|]. symmetry. apply Nat.eqb_eq. lia.
  - destruct (Nat.le_gt_cases (List.length es) k) as [Hle|Hgt]; [eapply IH; eauto|].
    destruct c0 as [st n tasks fl]. destruct Hal as (A1 & A2 & A3 & A4 & A5 & A6). cbn [co_st co_left co_tasks co_flight] in *. subst fl.
    assert (Hnotfin : tasks <> [] \/ n <> 0 -> (total_cycles S0 - ss_completed st =? 0) = false).
    { intros Hor. apply Nat.eqb_neq. destruct Hok. cbn in *. unfold total_cycles. rewrite (proj2 ck_started0). destruct tasks; [|cbn in *; lia]. destruct Hor as [|]; [congruence|]. cbn in *. nia. }
    (* the two steps of one task *)
    assert (Hpair : forall st n i tasks es1 en1 es01, csteps S0 d bl 1 (mkCoord st n (i :: tasks) []) es1 c -> coord_ok S0 1 (mkCoord st n (i :: tasks) []) es01 ->
      List.length es1 <= List.length es -> alike (mkCoord st n (i :: tasks) []) en1 -> (total_cycles S0 - ss_completed st =? 0) = false ->
      exists fuel en', (let! i := index (en_tasks en1) (en_next en1) in let! o := dispatch S0 (en_st en1) i in
         match o with
         | None => run_loop S0 fuel (mkEngine (en_st en1) (en_data en1) (en_bl en1) (en_iter en1) (en_tasks en1) (en_next en1 + 1))
         | Some (s2, t) => let! r := execute_task S0 (en_data en1) (en_bl en1) t in let! s3 := apply_task_result S0 s2 r in
             run_loop S0 fuel (mkEngine s3 (en_data en1) (en_bl en1) (en_iter en1) (en_tasks en1) (en_next en1 + 1))
         end) = Ok en' /\ en_st en' = co_st c).
    { clear st n tasks Hnotfin A1 A5 A6 Hok Hc en es0 A2 A3. intros st n i tasks es1 en1 es01 Hc Hok Hl (A1 & A2 & A3 & _ & A5 & A6) _. cbn [co_st co_left co_tasks co_flight] in *.
      apply skipn_cons_nth in A5 as (N1 & N2 & N3). unfold index. rewrite N1, A1, A2, A3. cbn [expect bind].
      inversion Hc as [? E|? e c2 es2 ? Hs1 Hc2]; subst; [destruct Hf as (_ & F & _); discriminate|].
      destruct (cstep_ok S0 d bl 1 _ _ _ _ Hok Hs1) as [Hok2 Hns].
      inversion Hs1; subst.
      - exfalso. eapply Hns; eauto.
      - match goal with HH : dispatch S0 _ i = Ok (Some _) |- _ => rewrite HH end. cbn [bind List.app] in *.
        inversion Hc2 as [? E|? e c3 es3 ? Hs2 Hc3]; subst; [destruct Hf as (_ & _ & F); discriminate|].
        destruct (cstep_ok S0 d bl 1 _ _ _ _ Hok2 Hs2) as [Hok3 _].
        inversion Hs2; subst; try (cbn in *; lia).
        match goal with HH : _ ++ _ :: _ = [t] |- _ => pose proof HH as Efl end.
        destruct fl1 as [|f1 fl1]; [|destruct fl1; discriminate]. cbn in Efl. injection Efl as -> ->.
        match goal with HH : execute_task S0 d bl t = Ok _ |- _ => rewrite HH end. cbn [bind].
        match goal with HH : apply_task_result S0 _ _ = Ok _ |- _ => rewrite HH end. cbn [bind].
        apply (IH es3 _ _ c (mkEngine st'0 d bl (en_iter en1) (en_tasks en1) (en_next en1 + 1))) in Hok3; auto.
        + cbn [List.length] in Hl. lia.
        + unfold alike. cbn [en_st en_data en_bl en_next en_tasks en_iter co_st co_left co_tasks co_flight List.app]. auto 10.
      - match goal with HH : _ ++ _ :: _ = [] |- _ => destruct fl1; discriminate end. }
    destruct tasks as [|i tasks].
    + inversion Hc as [? E|? e c2 es2 ? Hs1 Hc2]; subst es; [cbn in Hgt; lia|]. subst.
      destruct (cstep_ok S0 d bl 1 _ _ _ _ Hok Hs1) as [Hok2 Hns].
      inversion Hs1; subst; [|match goal with HH : _ ++ _ :: _ = [] |- _ => destruct fl1; discriminate end].
      assert (Hlo : List.length order = npop).
      { destruct (C36_shuffle_is_permutation (ss_order (en_st en)) (seq 0 (List.length (ss_pops (en_st en))))) as (o2 & g2 & Es & P). rewrite Es in H3. injection H3 as -> ->.
        apply Permutation_length in P. rewrite seq_length in P. destruct Hok. cbn in *. lia. }
      destruct order as [|i order]; [cbn in Hlo; lia|]. specialize (Hnotfin (or_intror (Nat.neq_succ_0 n0))).
      destruct (Hpair (with_order (en_st en) g) n0 i order es2 (mkEngine (with_order (en_st en) g) (en_data en) (en_bl en) (en_iter en + 1) (i :: order) 0) _ Hc2 Hok2) as (fuel & en' & Hr & He).
      { cbn. lia. } { unfold alike. cbn. split; auto. split; auto. split; auto. split; auto. split; auto. lia. } { exact Hnotfin. }
      exists (S fuel), en'. split; auto. cbn [run_loop]. unfold step_one_cycle. unfold is_finished at 1. rewrite Hnotfin.
      unfold prepare_iteration. destruct (Nat.leb_spec (sc_niterations S0) (en_iter en)); [lia|].
      replace (negb (List.length (en_tasks en) =? 0) && (en_next en <? List.length (en_tasks en))) with false.
      2: { symmetry. apply skipn_nil_len in A5. destruct (Nat.ltb_spec (en_next en) (List.length (en_tasks en))); [lia|]. apply andb_false_r. }
      rewrite H3. cbn [bind]. unfold is_finished. cbn [en_st]. change (ss_completed (with_order (en_st en) g)) with (ss_completed (en_st en)). rewrite Hnotfin.
      rewrite <- Hr. cbn [en_st en_data en_bl en_next en_tasks en_iter]. unfold index. cbn [nth_error expect bind].
      destruct (dispatch S0 (with_order (en_st en) g) i) as [[[s2 t]|]| |]; cbn [bind]; auto.
      destruct (execute_task S0 (en_data en) (en_bl en) t) as [r| |]; cbn [bind]; auto. destruct (apply_task_result S0 s2 r); cbn [bind]; auto.
    + assert (Hne : i :: tasks <> []) by discriminate. specialize (Hnotfin (or_introl Hne)). clear Hne.
      destruct (Hpair st n i tasks es en _ Hc Hok) as (fuel & en' & Hr & He); auto.
      { unfold alike. cbn. auto 10. }
      exists (S fuel), en'. split; auto. cbn [run_loop]. unfold step_one_cycle. unfold is_finished at 1. rewrite A1, Hnotfin.
      assert (Hprep : prepare_iteration S0 en = Ok en).
      { unfold prepare_iteration. destruct (_ <=? _); auto. apply skipn_cons_nth in A5 as (_ & _ & Hlt).
        destruct (Nat.ltb_spec (en_next en) (List.length (en_tasks en))); [|lia]. destruct (Nat.eqb_spec (List.length (en_tasks en)) 0); [lia|]. reflexivity. }
      rewrite Hprep. cbn [bind]. unfold is_finished. rewrite A1, Hnotfin. rewrite <- Hr, A1.
      destruct (index (en_tasks en) (en_next en)) as [j| |]; cbn [bind]; auto.
      destruct (dispatch S0 st j) as [[[s2 t]|]| |]; cbn [bind]; auto.
      destruct (execute_task S0 (en_data en) (en_bl en) t) as [r| |]; cbn [bind]; auto. destruct (apply_task_result S0 s2 r); cbn [bind]; auto.
Qed.
End One.

Theorem C38_one_worker_is_sequential : forall (T W : Type) (S0 : search_cfg T W) d en0 es c,
  engine_new S0 d = Ok en0 ->
  csteps S0 d (en_bl en0) 1 (parallel_start S0 (en_st en0)) es c -> finished c ->
  forall fuel, sc_niterations S0 * sc_populations S0 < fuel ->
  exists en, run_loop S0 fuel en0 = Ok en /\ en_st en = co_st c.
Proof.
  intros T W S0 d en0 es c Hn Hc Hf fuel Hfu. pose proof Hn as Hn0. unfold engine_new in Hn. apply bind_ok in Hn as (bl & Hb & Hn). apply bind_ok in Hn as (st & Hs & Hn).
  injection Hn as <-. cbn in *. apply init_home in Hs as (H1 & H2 & H3 & _ & H4).
  destruct (one_worker S0 d bl H4 (List.length es) es _ [] c (mkEngine st d bl 0 [] 0) (le_n _) Hc Hf (start_ok S0 1 st H1 H2 H3)) as (f & en & Hr & He).
  { unfold alike. cbn. auto 10. }
  exists en. split; auto. rewrite (C37_run_to_completion T W S0 d _ (sc_niterations S0 * sc_populations S0) fuel Hn0); auto.
  assert (Hf2 : forall f1 f2 en1 en2, run_loop S0 f1 en1 = Ok en2 -> run_loop S0 (f1 + f2) en1 = Ok en2).
  { clear. induction f1 as [|f1 IH]; intros f2 en1 en2 H; [discriminate|]. cbn [Nat.add run_loop] in *. apply bind_ok in H as ([en3 [|]] & -> & H); cbn [bind]; auto. }
  rewrite <- (C37_run_to_completion T W S0 d _ (sc_niterations S0 * sc_populations S0) (f + S (sc_niterations S0 * sc_populations S0)) Hn0); auto; lia.
Qed.

(** ** Cases *)

(** A run can be computed event by event. *)
Definition exec_event {T W} (S0 : search_cfg T W) (d : dataset T) (bl : option T) (nw : nat) (c : @coord T) (e : event) : option (@coord T) :=
  match e with
  | NewIteration =>
      match c with
      | mkCoord st (S n) [] [] =>
          match shuffle (ss_order st) (seq 0 (List.length (ss_pops st))) with Ok (o, g) => Some (mkCoord (with_order st g) n o []) | _ => None end
      | _ => None
      end
  | Dispatch i cur =>
      match c with
      | mkCoord st n (j :: tasks) fl =>
          match dispatch S0 st j with
          | Ok (Some (st', t)) => if (List.length fl <? nw) && (i =? j) && (cur =? tk_cur t) then Some (mkCoord st' n tasks (fl ++ [t])) else None
          | _ => None
          end
      | _ => None
      end
  | Deliver k =>     (* the k-th task in flight *)
      match nth_error (co_flight c) k with
      | Some t =>
          match execute_task S0 d bl t with
          | Ok r => match apply_task_result S0 (co_st c) r with
                    | Ok st' => if (nw <=? List.length (co_flight c)) || (List.length (co_tasks c) =? 0)
                                then Some (mkCoord st' (co_left c) (co_tasks c) (firstn k (co_flight c) ++ skipn (S k) (co_flight c))) else None
                    | _ => None
                    end
          | _ => None
          end
      | None => None
      end
  | Skip _ => None
  end.
Fixpoint exec {T W} (S0 : search_cfg T W) (d : dataset T) (bl : option T) (nw : nat) (c : @coord T) (es : list event) : option (@coord T) :=
  match es with [] => Some c | e :: es' => match exec_event S0 d bl nw c e with Some c' => exec S0 d bl nw c' es' | None => None end end.
Lemma exec_sound {T W} (S0 : search_cfg T W) d bl nw : forall es c c', exec S0 d bl nw c es = Some c' -> exists es', csteps S0 d bl nw c es' c' /\ List.length es' = List.length es.
Proof.
  induction es as [|e es IH]; intros c c' H; cbn [exec] in H.
  - injection H as <-. exists []. split; [constructor|auto].
  - destruct (exec_event S0 d bl nw c e) as [c1|] eqn:E1; [|discriminate]. apply IH in H as (es' & Hc & Hl).
    assert (Hs : exists e', cstep S0 d bl nw c e' c1).
    { destruct e; cbn [exec_event] in E1.
      - destruct c as [st [|n] [|] [|]]; try discriminate. destruct (shuffle _ _) as [[o g]| |] eqn:Es; try discriminate. injection E1 as <-. eexists. apply CNew. exact Es.
      - discriminate.
      - destruct c as [st n [|j tasks] fl]; try discriminate. destruct (dispatch S0 st j) as [[[st' t]|]| |] eqn:Ed; try discriminate.
        destruct (_ && _) eqn:Eb; [|discriminate]. injection E1 as <-. apply andb_true_iff in Eb as [Eb _]. apply andb_true_iff in Eb as [Eb _]. apply Nat.ltb_lt in Eb.
        eexists. eapply CDispatch; eauto.
      - destruct (nth_error (co_flight c) i) as [t|] eqn:En; [|discriminate]. destruct (execute_task S0 d bl t) as [r| |] eqn:Er; try discriminate.
        destruct (apply_task_result S0 (co_st c) r) as [st'| |] eqn:Ea; try discriminate. destruct (_ || _) eqn:Eb; [|discriminate]. injection E1 as <-.
        destruct c as [st n tasks fl]. cbn [co_st co_left co_tasks co_flight] in *.
        assert (Efl : fl = firstn i fl ++ t :: skipn (S i) fl).
        { clear - En. revert i En. induction fl as [|x fl IH]; intros [|i] En; try discriminate; cbn in *; [congruence|]. f_equal. auto. }
        exists (Deliver (tk_idx t)). rewrite Efl at 1. apply (CDeliver S0 d bl nw st n tasks _ t _ r st'); auto.
        rewrite <- Efl. apply orb_true_iff in Eb as [Eb|Eb]; [left; apply Nat.leb_le; auto|right]. apply Nat.eqb_eq in Eb. destruct tasks; auto. discriminate. }
    destruct Hs as (e' & Hs). exists (e' :: es'). split; [econstructor; eauto|cbn; lia].
Qed.

Definition evo_demo2 : evo_cfg xq :=
  mkEvo (demo_cfg LMse) (mkOptCfg xqops xq_opt_ops (fun x => Some x) (fun x => Some x) false 2 0 0 (XF 0) default_bt)
    [[]; [(2, 0); (2, 5)]]
    (mkWeights (XF 0) (XF 1) (XF 0) (XF 0) (XF 0) (XF 1) (XF 0) (XF 1) (XF 0) (XF 0) (XF 0) (XF 0))
    true (XF (1 # 2)) (fun _ _ _ v => v) (mkCfg (Some 0) (Some 5) (Some 7)) false (XF 1) false (fun x => x) (XF (1 # 1000000))
    (fun n => XF (inject_Z (Z.of_nat n))) (XF (1 # 10)) true (mkSel 2 (XF 1) false (XF 0) 9) 20 [] 1.
(** Two populations of two members, two iterations, migration on. *)
Definition search_demo (batching : bool) : search_cfg xq xq :=
  mkSearch evo_demo2 2 2 2 batching 1 1 true (XF (1 # 2)) true (XF (1 # 2)) (fun r _ => (1, r))
    (fun i => mkRng (fun n => n * 7 + 3 + i) (fun n => XF (Qmake (Z.of_nat (Nat.modulo (n + 2 + i) 5)) 7)))
    (mkRng (fun n => n) (fun _ => XF 0)) 100 xqops (fun n => XF (inject_Z (Z.of_nat n))) (fun _ => 0) (XF 0).

Definition seen (st : search_st xq) : list (option (list nat)) := map (option_map (fun p => map m_id (ps_pop p))) (ss_pops st).
Definition outcome_of (r : res (@engine xq * list nat)) : option (list nat * nat * list (option (list nat))) :=
  match r with Ok (en, ks) => Some (ks, ss_completed (en_st en), seen (en_st en)) | _ => None end.
Definition is_ok {A} (r : res A) : bool := match r with Ok _ => true | _ => false end.
Lemma is_ok_ok {A} (r : res A) : is_ok r = true -> exists x, r = Ok x.
Proof. destruct r; try discriminate. eauto. Qed.
Definition from_new (S0 : search_cfg xq xq) (d : dataset xq) (ns : list nat) : option (list nat * nat * list (option (list nat))) :=
  match engine_new S0 d with Ok en => outcome_of (steps S0 en ns) | _ => None end.
Lemma from_new_inv S0 d ns x : from_new S0 d ns = Some x -> exists en0, engine_new S0 d = Ok en0 /\ outcome_of (steps S0 en0 ns) = Some x.
Proof. unfold from_new. destruct (engine_new S0 d) as [en0| |]; try discriminate. eauto. Qed.
Example C37_case : exists en0, engine_new (search_demo false) demo_data = Ok en0
  /\ outcome_of (steps (search_demo false) en0 [1; 2; 9; 5]) = Some ([1; 2; 1; 0], 4, [Some [8; 5]; Some [107; 105]]).
Proof. apply from_new_inv. vm_compute. reflexivity. Qed.

(** Two workers; the result of the task dispatched second arrives first, in both iterations. *)
Definition out_of_order : list event :=
  [NewIteration; Dispatch 1 9; Dispatch 0 9; Deliver 1; Deliver 0; NewIteration; Dispatch 0 9; Dispatch 1 9; Deliver 1; Deliver 0].
Definition ended (c : @coord xq) : nat * list nat * nat * nat * list (option (list nat)) :=
  (co_left c, co_tasks c, List.length (co_flight c), ss_completed (co_st c), seen (co_st c)).
Definition after {A} (f : @coord xq -> A) (S0 : search_cfg xq xq) (d : dataset xq) (es : list event) : option A :=
  match init_search S0 d None with
  | Ok st => match exec S0 d None 2 (parallel_start S0 st) es with Some c => Some (f c) | None => None end
  | _ => None
  end.
Lemma after_inv {A} (f : @coord xq -> A) S0 d es x : after f S0 d es = Some x ->
  exists st0 es c, init_search S0 d None = Ok st0 /\ csteps S0 d None 2 (parallel_start S0 st0) es c /\ f c = x.
Proof.
  unfold after. destruct (init_search S0 d None) as [st0| |]; try discriminate. destruct (exec _ _ _ _ _ _) as [c|] eqn:Ex; [|discriminate].
  intros [= <-]. apply exec_sound in Ex as (es1 & Hc & _). exists st0, es1, c. auto.
Qed.
Example C38_case : exists st0 es c, init_search (search_demo false) demo_data None = Ok st0
  /\ csteps (search_demo false) demo_data None (n_workers (search_demo false) 8) (parallel_start (search_demo false) st0) es c
  /\ ended c = (0, [], 0, 4, [Some [8; 5]; Some [107; 105]]).
Proof. apply (after_inv ended (search_demo false) demo_data out_of_order). vm_compute. reflexivity. Qed.

(** A batch size other than the number of rows: both tasks panic, because the evaluator's buffer has the size of the full data. *)
Definition all_panic (d : dataset xq) (S0 : search_cfg xq xq) (c : @coord xq) : bool :=
  (List.length (co_flight c) =? 2) && forallb (fun t => negb (is_ok (execute_task S0 d None t))) (co_flight c).
Example C38_panic_case : exists st0 es c, init_search (search_demo true) demo_data None = Ok st0
  /\ csteps (search_demo true) demo_data None (n_workers (search_demo true) 8) (parallel_start (search_demo true) st0) es c
  /\ all_panic demo_data (search_demo true) c = true.
Proof. apply (after_inv (all_panic demo_data (search_demo true)) (search_demo true) demo_data [NewIteration; Dispatch 1 9; Dispatch 0 9]). vm_compute. reflexivity. Qed.

Print Assumptions C37_cycles.
Print Assumptions C37_split.
Print Assumptions C37_run_to_completion.
Print Assumptions C38_no_population_lost.
Print Assumptions C38_every_population_advanced.
Print Assumptions C38_terminates.
Print Assumptions C38_panic_hangs_refuted.
Print Assumptions C38_one_worker_is_sequential.
