(** Property C57: what the coordinator does with the result of a task, in particular which members migrate. *)
From Coq Require Import QArith.
From Verif Require Import Base BaseLemmas Node Compile Eval Deriv Rng Registry Mutation Complexity Num Member PropHof Selection Simplify Conditioning Dataset Loss PropLoss
  Optim PropOptim ConstOpt Evolution PropEvolution Search PropSearch PropIds Ready Invariant PropWhole PropBest.
Local Open Scope nat_scope.

(** ** Specification *)

(** [x] is among the best members another population delivered last. *)
Definition best_elsewhere {T} (subs : list (list (member T))) (i : nat) (x : member T) : Prop := exists k l, k <> i /\ nth_error subs k = Some l /\ In x l.
(** The members [now], each where it was [before] or a copy of one of the [migrants] with an id and a birth stamp not used before. *)
Definition partly_replaced {T} (migrants : member T -> Prop) (before now : list (member T)) (id0 id1 birth0 birth1 : nat) : Prop :=
  List.length now = List.length before
  /\ forall j m, nth_error now j = Some m ->
     nth_error before j = Some m
     \/ exists x id birth, migrants x /\ copy_of x id birth m /\ id0 <= id < id1 /\ birth0 <= birth < birth1.

(** ** Proof *)
Lemma others_iff {T} (subs : list (list (member T))) i x : In x (others subs i) <-> best_elsewhere subs i x.
Proof.
  split; [apply others_in|]. intros (k & l & Hk & Hl & Hx). unfold others. apply in_concat. exists l. split; auto. apply in_map_iff. exists (k, l). split; auto.
  apply filter_In. split; [|cbn; apply negb_true_iff, Nat.eqb_neq; auto].
  assert (G : forall (subs : list (list (member T))) a k l, nth_error subs k = Some l -> In (a + k, l) (combine (seq a (List.length subs)) subs)).
  { clear. induction subs as [|s subs IH]; intros a [|k] l H; cbn in *; try discriminate.
    - injection H as ->. left. f_equal. lia.
    - right. replace (a + S k) with (S a + k) by lia. apply IH. auto. }
  apply (G subs 0 k l Hl).
Qed.

Section Exchange.
Context {T W : Type} (S0 : search_cfg T W).
Local Notation F := (ec_F (eo_C (sc_E S0))).

Lemma migrate_replaced ps migrants frac ps' : migrate S0 ps migrants frac = Ok ps' ->
  partly_replaced (fun x => In x migrants) (ps_pop ps) (ps_pop ps') (es_id (ps_st ps)) (es_id (ps_st ps')) (es_birth (ps_st ps)) (es_birth (ps_st ps'))
  /\ es_id (ps_st ps) <= es_id (ps_st ps') /\ es_birth (ps_st ps) <= es_birth (ps_st ps').
Proof.
  unfold migrate. intros H. destruct (C27_migration T T F (eo_of_nat (sc_E S0)) (sc_poisson S0) (ps_pop ps) migrants frac (es_rng (ps_st ps)) (es_id (ps_st ps)) (es_birth (ps_st ps)))
    as (ms' & r' & n & f & E & _ & _ & _ & _ & _ & A). rewrite E in H. cbn [bind] in H. injection H as <-. cbn [ps_pop ps_st es_id es_birth]. split; [|lia].
  destruct A as (A1 & A2 & _). split; auto. intros j m Hm. specialize (A2 j). destruct (f j) as [k|].
  - destruct A2 as (Hk & src & m' & Hin & Hm' & Hc). right. exists src, (es_id (ps_st ps) + k), (es_birth (ps_st ps) + k). rewrite Hm in Hm'. injection Hm' as <-. repeat split; auto; try apply Hc; lia.
  - left. congruence.
Qed.
Lemma partly_refl (P : member T -> Prop) ms id0 id1 b0 b1 : partly_replaced P ms ms id0 id1 b0 b1.
Proof. split; auto. Qed.
Lemma partly_trans (P Q : member T -> Prop) a b c i0 i1 i2 b0 b1 b2 : i0 <= i1 -> i1 <= i2 -> b0 <= b1 -> b1 <= b2 ->
  partly_replaced P a b i0 i1 b0 b1 -> partly_replaced Q b c i1 i2 b1 b2 -> partly_replaced (fun x => P x \/ Q x) a c i0 i2 b0 b2.
Proof.
  intros L1 L2 L3 L4 [H1 H2] [H3 H4]. split; [congruence|]. intros j m Hm. apply H4 in Hm as [Hm|(x & id & b' & Hx & Hc & Hi & Hb)].
  - apply H2 in Hm as [Hm|(x & id & b' & Hx & Hc & Hi & Hb)]; auto. right. exists x, id, b'. repeat split; auto; try apply Hc; lia.
  - right. exists x, id, b'. repeat split; auto; try apply Hc; lia.
Qed.
End Exchange.

(** The delivered population takes its place, some of its members replaced by copies of the best of the other populations (if migration is on) and of members
    on the Pareto front of the hall of fame (if that migration is on); its best members are remembered; every other population is untouched; the counters count. *)
Theorem C57_exchange : forall (T W : Type) (S0 : search_cfg T W) (st : search_st T) (r : task_result T) st',
  apply_task_result S0 st r = Ok st' ->
  let i := tr_idx r in
  exists ps, nth_error (ss_pops st') i = Some (Some ps)
    /\ (forall j, j <> i -> nth_error (ss_pops st') j = nth_error (ss_pops st) j)
    /\ nth_error (ss_subs st') i = Some (tr_sub r) /\ (forall j, j <> i -> nth_error (ss_subs st') j = nth_error (ss_subs st) j)
    /\ partly_replaced (fun x => (sc_migration S0 = true /\ best_elsewhere (ss_subs st) i x)
                                 \/ (sc_hof_migration S0 = true /\ In x (pareto_front (ec_F (eo_C (sc_E S0))) (ss_hall st'))))
         (ps_pop (tr_pop r)) (ps_pop ps) (es_id (ps_st (tr_pop r))) (es_id (ps_st ps)) (es_birth (ps_st (tr_pop r))) (es_birth (ps_st ps))
    /\ ss_evals st' = ss_evals st + tr_evals r /\ ss_completed st' = ss_completed st + 1 /\ ss_started st' = ss_started st.
Proof.
  intros T W S0 st r st' H i. unfold apply_task_result in H. cbv zeta in H. fold i in H.
  apply bind_ok in H as (subs & Hs & H). apply bind_ok in H as (x & _ & H). apply bind_ok in H as (h1 & _ & H). apply bind_ok in H as ([h2 b] & _ & H).
  apply bind_ok in H as (ps1 & H1 & H). apply bind_ok in H as (ps2 & H2 & H). apply bind_ok in H as (pops & Hp & H). injection H as <-.
  cbn [ss_pops ss_subs ss_hall ss_evals ss_completed ss_started].
  unfold set_index in Hs, Hp. destruct (Nat.ltb_spec i (List.length (ss_subs st))) as [Hi|]; [|discriminate]. injection Hs as <-.
  destruct (Nat.ltb_spec i (List.length (ss_pops st))) as [Hi'|]; [|discriminate]. injection Hp as <-.
  exists ps2. split; [apply nth_error_upd_same; auto|]. split; [intros j Hj; apply nth_error_upd_other; auto|].
  split; [apply nth_error_upd_same; auto|]. split; [intros j Hj; apply nth_error_upd_other; auto|]. split; [|auto].
  assert (A : partly_replaced (fun x => sc_migration S0 = true /\ best_elsewhere (ss_subs st) i x) (ps_pop (tr_pop r)) (ps_pop ps1)
      (es_id (ps_st (tr_pop r))) (es_id (ps_st ps1)) (es_birth (ps_st (tr_pop r))) (es_birth (ps_st ps1))
    /\ es_id (ps_st (tr_pop r)) <= es_id (ps_st ps1) /\ es_birth (ps_st (tr_pop r)) <= es_birth (ps_st ps1)).
  { destruct (sc_migration S0).
    - apply migrate_replaced in H1 as [[A1 A2] A3]. split; [|exact A3]. split; auto. intros j m Hm. apply A2 in Hm as [Hm|(y & id & bb & Hy & Hr)]; auto.
      right. exists y, id, bb. split; [|exact Hr]. split; auto. apply others_iff in Hy as (k & l & Hk & Hl & Hy). exists k, l. rewrite nth_error_upd_other in Hl by auto. auto.
    - injection H1 as <-. split; [apply partly_refl|lia]. }
  assert (B : partly_replaced (fun x => sc_hof_migration S0 = true /\ In x (pareto_front (ec_F (eo_C (sc_E S0))) h2)) (ps_pop ps1) (ps_pop ps2)
      (es_id (ps_st ps1)) (es_id (ps_st ps2)) (es_birth (ps_st ps1)) (es_birth (ps_st ps2))
    /\ es_id (ps_st ps1) <= es_id (ps_st ps2) /\ es_birth (ps_st ps1) <= es_birth (ps_st ps2)).
  { destruct (sc_hof_migration S0).
    - apply migrate_replaced in H2 as [[A1 A2] A3]. split; [|exact A3]. split; auto. intros j m Hm. apply A2 in Hm as [Hm|(y & id & bb & Hy & Hr)]; auto.
      right. exists y, id, bb. auto.
    - injection H2 as <-. split; [apply partly_refl|lia]. }
  destruct A as (A & A1 & A2). destruct B as (B & B1 & B2). eapply partly_trans; eauto.
Qed.

(** Everyone among the best of the other populations is a candidate: the migrants offered are exactly they. *)
Theorem C57_candidates : forall (T W : Type) (S0 : search_cfg T W) (st : search_st T) (r : task_result T) st',
  apply_task_result S0 st r = Ok st' -> sc_migration S0 = true -> sc_hof_migration S0 = false ->
  exists migrants ps, (forall x, In x migrants <-> best_elsewhere (ss_subs st) (tr_idx r) x)
    /\ nth_error (ss_pops st') (tr_idx r) = Some (Some ps)
    /\ let s := ps_st (tr_pop r) in
       exists g, migrate_into (ec_F (eo_C (sc_E S0))) (eo_of_nat (sc_E S0)) (sc_poisson S0) (ps_pop (tr_pop r)) migrants (sc_frac S0) (es_rng s) (es_id s) (es_birth s)
       = Ok (ps_pop ps, g, es_id (ps_st ps), es_birth (ps_st ps)).
Proof.
  intros T W S0 st r st' H Hm Hh. unfold apply_task_result in H. cbv zeta in H. rewrite Hm, Hh in H.
  apply bind_ok in H as (subs & Hs & H). apply bind_ok in H as (x & _ & H). apply bind_ok in H as (h1 & _ & H). apply bind_ok in H as ([h2 b] & _ & H).
  apply bind_ok in H as (ps1 & H1 & H). apply bind_ok in H as (ps2 & H2 & H). injection H2 as ->. apply bind_ok in H as (pops & Hp & H). injection H as <-. cbn [ss_pops].
  unfold set_index in Hs, Hp. destruct (Nat.ltb_spec (tr_idx r) (List.length (ss_subs st))) as [Hi|]; [|discriminate]. injection Hs as <-.
  destruct (Nat.ltb_spec (tr_idx r) (List.length (ss_pops st))) as [Hi'|]; [|discriminate]. injection Hp as <-.
  unfold migrate in H1. apply bind_ok in H1 as ([[[pop g] id] birth] & H1 & H2). injection H2 as <-.
  exists (others (upd (ss_subs st) (tr_idx r) (tr_sub r)) (tr_idx r)). eexists. split; [|split; [apply nth_error_upd_same; auto|cbn; eauto]].
  intros y. rewrite others_iff. unfold best_elsewhere. split; intros (k & l & Hk & Hl & Hy); exists k, l; rewrite nth_error_upd_other in * by auto; auto.
Qed.

(** *** Case: in the search of C48 the result of population 0 is applied; one of its two members is replaced by a copy of the best member population 1 delivered
    (with a new id), the other stays; population 1 is untouched. *)
Definition exchange_start : res (search_st xq * task_result xq) :=
  let! st0 := init_search missed_search demo_data None in
  let! o1 := dispatch missed_search st0 1 in
  match o1 with
  | None => Panic
  | Some (st1, t1) =>
      let! r1 := execute_task missed_search demo_data None t1 in
      let! st2 := apply_task_result missed_search st1 r1 in
      let! o2 := dispatch missed_search st2 0 in
      match o2 with None => Panic | Some (st3, t2) => let! r2 := execute_task missed_search demo_data None t2 in Ok (st3, r2) end
  end.
Definition m_key {T} (m : member T) := (nodes (m_expr m), m_id m).
Definition exchange_run :=
  let! (st, r) := exchange_start in
  let! st' := apply_task_result missed_search st r in
  Ok (tr_idx r, map m_key (ps_pop (tr_pop r)), map (map m_key) (ss_subs st), map (option_map (fun p => map m_key (ps_pop p))) (ss_pops st')).
Lemma exchange_inv a b c d : exchange_run = Ok (a, b, c, d) -> exists st r st', exchange_start = Ok (st, r) /\ apply_task_result missed_search st r = Ok st'
  /\ tr_idx r = a /\ map m_key (ps_pop (tr_pop r)) = b /\ map (map m_key) (ss_subs st) = c /\ map (option_map (fun p => map m_key (ps_pop p))) (ss_pops st') = d.
Proof.
  unfold exchange_run. intros E. apply bind_ok in E as ([st r] & E1 & E). apply bind_ok in E as (st' & E2 & E). injection E as A1 A2 A3 A4.
  exists st, r, st'. exact (conj E1 (conj E2 (conj A1 (conj A2 (conj A3 A4))))).
Qed.
Example C57_case : exists st r st', exchange_start = Ok (st, r) /\ apply_task_result missed_search st r = Ok st' /\ sc_migration missed_search = true
  /\ tr_idx r = 0 /\ map m_key (ps_pop (tr_pop r)) = [([Const 0], 4); ([Const 0], 3)]
  /\ map (map m_key) (ss_subs st) = [[([Const 0; Const 1; Const 2; Op 2 5; Const 3; Op 2 5; Op 2 5], 0)]; [([Var 0; Var 0; Var 0; Op 2 0; Op 2 0; Var 0; Op 2 0], 103)]]
  /\ map (option_map (fun p => map m_key (ps_pop p))) (ss_pops st')
     = [Some [([Const 0], 4); ([Var 0; Var 0; Var 0; Op 2 0; Op 2 0; Var 0; Op 2 0], 6)];
        Some [([Var 0; Var 0; Var 0; Op 2 0; Op 2 0; Var 0; Op 2 0], 106); ([Var 0; Var 0; Var 0; Op 2 0; Op 2 0; Var 0; Op 2 0], 103)]].
Proof.
  assert (E : exchange_run = Ok (0, [([Const 0], 4); ([Const 0], 3)],
    [[([Const 0; Const 1; Const 2; Op 2 5; Const 3; Op 2 5; Op 2 5], 0)]; [([Var 0; Var 0; Var 0; Op 2 0; Op 2 0; Var 0; Op 2 0], 103)]],
    [Some [([Const 0], 4); ([Var 0; Var 0; Var 0; Op 2 0; Op 2 0; Var 0; Op 2 0], 6)];
     Some [([Var 0; Var 0; Var 0; Op 2 0; Op 2 0; Var 0; Op 2 0], 106); ([Var 0; Var 0; Var 0; Op 2 0; Op 2 0; Var 0; Op 2 0], 103)]])) by (vm_compute; reflexivity).
  apply exchange_inv in E as (st & r & st' & E1 & E2 & A1 & A2 & A3 & A4).
  exists st, r, st'. exact (conj E1 (conj E2 (conj eq_refl (conj A1 (conj A2 (conj A3 A4)))))).
Qed.

Print Assumptions C57_exchange.
Print Assumptions C57_candidates.
