(** A scheme for properties of every member a search holds: in the populations (at home or in a task), in the best of each population, in the hall of
    fame, and as the best overall. Used with several choices of the predicates. *)
From Verif Require Import Base BaseLemmas Node Tree Compile Eval EvalProofs EvalTop Deriv Rng Registry Mutation Complexity Member PropHof Selection
  Simplify Conditioning Dataset Loss PropLoss Optim ConstOpt Frames Evolution PropEvolution Search PropSearch PropIds Ready.
Local Open Scope nat_scope.

(** The same member under another id, parent and birth. *)
Definition readdress {T} (m : member T) (id : nat) (parent : option nat) (birth : nat) : member T :=
  mkMember id parent birth (m_expr m) (m_plan m) (m_complexity m) (m_loss m) (m_cost m).

Section Invariant.
Context {T W : Type} (S0 : search_cfg T W) (full : dataset T) (bl : option T).
Local Notation E := (sc_E S0).
Local Notation C := (eo_C (sc_E S0)).
Local Notation F := (ec_F (eo_C (sc_E S0))).
Local Notation maxsize := (sel_maxsize (eo_sel (sc_E S0))).
Lemma consider_cases h m cur stale h' : consider F (ec_umax C) (ec_D C) (ec_size C) stale h m cur = Ok h' ->
  h' = h \/ (check_constraints (ec_umax C) (ec_D C) stale (ec_size C) (m_expr m) cur = Ok true /\ 1 <= m_complexity m < List.length h
             /\ h' = upd h (m_complexity m) (Some m)).
Proof.
  unfold consider. intros H. apply bind_ok in H as (ok & Hk & H). destruct ok; cbn [negb] in H; [|injection H as <-; auto].
  destruct (Nat.eqb_spec (m_complexity m) 0); [injection H as <-; auto|].
  destruct (Nat.leb_spec (List.length h) (m_complexity m)); [injection H as <-; auto|].
  assert (Hs : forall h2, set_index h (m_complexity m) (Some m) = Ok h2 -> h2 = upd h (m_complexity m) (Some m)).
  { intros h2. unfold set_index. destruct (_ <? _); [|discriminate]. now intros [= <-]. }
  apply bind_ok in H as (slot & _ & H). destruct slot as [b|].
  - destruct (is_less _); [|injection H as <-; auto]. apply Hs in H. right. repeat split; auto; lia.
  - apply Hs in H. right. repeat split; auto; lia.
Qed.
Lemma pareto_in (ms : list (member T)) : forall b m, In m (pareto_loop F ms b) -> In m ms.
Proof.
  induction ms as [|x ms IH]; intros b m H; cbn in H; [destruct H|]. destruct (fltb F (m_loss x) b).
  - destruct H as [->|H]; [left; auto|right; eauto].
  - right. eauto.
Qed.
Lemma others_in (subs : list (list (member T))) i m : In m (others subs i) -> exists j l, j <> i /\ nth_error subs j = Some l /\ In m l.
Proof.
  unfold others. intros H. apply in_concat in H as (l & Hl & Hm). apply in_map_iff in Hl as ([j l'] & El & Hl). cbn in El. subst l'.
  apply filter_In in Hl as [Hl Hne]. cbn in Hne. apply In_nth_error in Hl as (k & Hk).
  assert (Hlen : k < List.length (combine (seq 0 (List.length subs)) subs)) by (apply nth_error_Some; congruence).
  rewrite combine_length, seq_length in Hlen. apply (nth_error_nth _ _ (0, [])) in Hk. rewrite combine_nth in Hk by apply seq_length.
  injection Hk as H1 H2. rewrite seq_nth in H1 by lia. cbn in H1. subst k. exists j, l. split; [|split; auto].
  - intros ->. rewrite Nat.eqb_refl in Hne. discriminate.
  - rewrite <- H2. apply nth_error_nth'. lia.
Qed.
Lemma best_sub_in ms topn l : best_sub_pop F ms topn = Ok l -> forall m, In m l -> In m ms.
Proof.
  unfold best_sub_pop. cbv zeta. intros H m Hm. apply In_nth_error in Hm as (i & Hi).
  revert l i H Hi. generalize (firstn (Nat.min topn (List.length (sort_by
    (fun i j => cmp_or_greater F match nth_error ms i with Some m => m_cost m | None => fnan F end match nth_error ms j with Some m => m_cost m | None => fnan F end) (seq 0 (List.length ms)))))
    (sort_by (fun i j => cmp_or_greater F match nth_error ms i with Some m => m_cost m | None => fnan F end match nth_error ms j with Some m => m_cost m | None => fnan F end) (seq 0 (List.length ms)))).
  induction l as [|k idx IH]; intros l i H Hi; cbn in H; [injection H as <-; destruct i; discriminate|].
  apply bind_ok in H as (x & Hx & H). apply bind_ok in H as (l1 & H1 & H). injection H as <-. destruct i as [|i].
  - cbn in Hi. injection Hi as ->. unfold index in Hx. destruct (nth_error ms k) eqn:En; [|discriminate]. cbn in Hx. injection Hx as ->. eapply nth_error_In; eauto.
  - eapply IH; eauto.
Qed.
Lemma execute_sub t r : execute_task S0 full bl t = Ok r -> forall m, In m (tr_sub r) -> In m (ps_pop (tr_pop r)).
Proof.
  unfold execute_task. intros H. apply bind_ok in H as ([d1 ps1] & _ & H). apply bind_ok in H as ([[[p1 s1] h1] k1] & _ & H).
  apply bind_ok in H as ([d2 ps2] & _ & H). apply bind_ok in H as ([[[p2 s2] gc] k2] & _ & H). apply bind_ok in H as (sub & Hs & H).
  injection H as <-. cbn. eapply best_sub_in; eauto.
Qed.
Lemma init_best_in : forall ms b o, init_best S0 ms b = Ok o -> o = b \/ exists m, o = Some m /\ In m ms.
Proof.
  induction ms as [|m ms IH]; intros b o H; cbn [init_best] in H; [injection H as <-; auto|]. apply bind_ok in H as (ok & _ & H). apply IH in H as [H|(x & H1 & H2)].
  - destruct (negb ok); auto. destruct b as [c|]; [|subst; right; exists m; split; auto; left; auto]. destruct (fltb _ _ _); auto. subst. right. exists m. split; auto. left; auto.
  - right. exists x. split; auto. right. auto.
Qed.

(** In populations; delivered by a task; offered to the hall of fame; and what being checked against [cur <= maxsize] gives. *)
Context (Pp Pd Po : member T -> Prop) (Pf : expr T -> Prop).
Hypothesis HPdp : forall m, Pd m -> Pp m.
Hypothesis HPdo : forall m, Pd m -> Po m.
Hypothesis HPof : sc_hof_migration S0 = true -> forall m, Po m -> Pp m.
Hypothesis Hcopy : forall m id p b, Pp m -> Pp (readdress m id p b).
Hypothesis Hlim : forall rem cur, get_cur_maxsize (sc_F32 S0) (sc_of32 S0) (sc_floor32 S0) (sc_warmup_by S0) maxsize (total_cycles S0) rem = Ok cur -> cur <= maxsize.
Hypothesis Hfeas : forall m cur, Po m -> cur <= maxsize -> check E (m_expr m) cur = Ok true -> Pf (m_expr m).

Definition pop_inv (ps : pop_state T) : Prop :=
  List.length (ps_pop ps) = sc_population_size S0 /\ Forall Pp (ps_pop ps) /\ ready (ds_n_rows full) (es_ev (ps_st ps)).
Hypothesis Htask : forall t r, pop_inv (tk_pop t) -> tk_cur t <= maxsize -> execute_task S0 full bl t = Ok r ->
  pop_inv (tr_pop r) /\ Forall Pd (ps_pop (tr_pop r)) /\ forall c m, stored (tr_seen r) c m -> Po m.

Definition hall_inv (h : hof T) : Prop :=
  List.length h = maxsize + 1 /\ forall c m, stored h c m -> m_complexity m = c /\ 1 <= c <= maxsize /\ Po m /\ Pf (m_expr m).
Record st_inv (st : search_st T) : Prop := {
  si_pops : forall ps, In (Some ps) (ss_pops st) -> pop_inv ps;
  si_subs : Forall (Forall Pd) (ss_subs st);
  si_hall : hall_inv (ss_hall st);
  si_best : Pd (ss_best st) }.
Definition co_inv (c : @coord T) : Prop :=
  st_inv (co_st c) /\ forall t, In t (co_flight c) -> pop_inv (tk_pop t) /\ tk_cur t <= maxsize.

Lemma consider_inv h m cur h' : hall_inv h -> Po m -> cur <= maxsize -> consider F (ec_umax C) (ec_D C) (ec_size C) (eo_stale E) h m cur = Ok h' -> hall_inv h'.
Proof.
  intros [Hl Hh] Hm Hc H. apply consider_cases in H as [->|(Hk & Hr & ->)]; [split; auto|]. split; [rewrite upd_length; auto|].
  intros c m0 Hst. unfold stored in Hst. apply nth_error_upd_cases in Hst as [[<- E0]|[_ Hst]]; [|apply Hh; exact Hst].
  injection E0 as ->. split; auto. split; [lia|]. split; auto. eapply Hfeas; eauto.
Qed.
Lemma offer_inv : forall ms h cur h', hall_inv h -> Forall Po ms -> cur <= maxsize -> offer S0 h ms cur = Ok h' -> hall_inv h'.
Proof.
  unfold offer, update_hof, update_from_members. induction ms as [|m ms IH]; intros h cur h' Hh Hm Hc H; cbn in H; [injection H as <-; auto|].
  inversion Hm; subst. apply bind_ok in H as (h1 & H1 & H). eapply consider_inv in H1; eauto.
Qed.
Lemma offer_best_inv : forall ms h b cur h' b', hall_inv h -> Forall Pd ms -> Pd b -> cur <= maxsize -> offer_best S0 ms h b cur = Ok (h', b') ->
  hall_inv h' /\ Pd b'.
Proof.
  induction ms as [|m ms IH]; intros h b cur h' b' Hh Hm Hb Hc H; cbn [offer_best] in H; [injection H as <- <-; auto|].
  inversion Hm; subst. apply bind_ok in H as (h1 & H1 & H). apply bind_ok in H as (ok & _ & H). eapply consider_inv in H1; eauto.
  eapply IH; [exact H1| | | |exact H]; auto. destruct (_ && _); auto.
Qed.

Lemma hall_members_inv h : (forall c m, stored h c m -> Po m) -> Forall Po (hof_members h).
Proof.
  intros Hh. apply Forall_forall. intros m Hm. apply In_nth_error in Hm as (i & Hi). apply hof_members_nth in Hi as (c & Hs & _). eauto.
Qed.

Lemma migrate_loop_inv {V} (mig : list (member T)) : Forall Pp mig -> forall n ms (r : rng V) id b ms' r' id' b', Forall Pp ms ->
  migrate_loop n ms mig r id b = Ok (ms', r', id', b') -> Forall Pp ms' /\ List.length ms' = List.length ms.
Proof.
  intros Hmig. induction n as [|n IH]; intros ms r id b ms' r' id' b' Hms H; cbn [migrate_loop] in H; [injection H as <- _ _ _; auto|].
  apply bind_ok in H as ([loc r1] & _ & H). apply bind_ok in H as ([k r2] & _ & H). apply bind_ok in H as (src & Hs & H). cbv zeta in H.
  apply bind_ok in H as (ms1 & H1 & H). unfold set_index in H1. destruct (_ <? _); [|discriminate]. injection H1 as <-.
  apply IH in H as [H L]; [rewrite upd_length in L; auto|]. apply Forall_forall. intros m Hm. apply in_upd in Hm as [Hm|Hm]; [rewrite Forall_forall in Hms; auto|].
  subst m. apply Hcopy. rewrite Forall_forall in Hmig. apply Hmig. unfold index in Hs. destruct (nth_error mig k) eqn:En; [|discriminate]. cbn in Hs.
  injection Hs as ->. eapply nth_error_In; eauto.
Qed.
Lemma migrate_into_inv {V} (FW : FloatOps V) of_nat poisson ms mig frac (r : rng V) id b ms' r' id' b' : Forall Pp mig -> Forall Pp ms ->
  migrate_into FW of_nat poisson ms mig frac r id b = Ok (ms', r', id', b') -> Forall Pp ms' /\ List.length ms' = List.length ms.
Proof.
  unfold migrate_into. intros Hmig Hms H. destruct mig as [|m0 mig]; [injection H as <- _ _ _; auto|].
  destruct (fleb _ _ _); [injection H as <- _ _ _; auto|]. destruct ms as [|m1 ms]; [injection H as <- _ _ _; auto|].
  cbv zeta in H. destruct (negb _); [injection H as <- _ _ _; auto|]. destruct (poisson r _) as [n r1].
  destruct (_ =? 0); [injection H as <- _ _ _; auto|]. eapply migrate_loop_inv; [exact Hmig| |exact H]; auto.
Qed.
Lemma migrate_inv ps mig frac ps' : pop_inv ps -> Forall Pp mig -> migrate S0 ps mig frac = Ok ps' -> pop_inv ps'.
Proof.
  intros (L & P & R) Hm H. unfold migrate in H. apply bind_ok in H as ([[[pop g] id] b] & H1 & H). injection H as <-.
  apply migrate_into_inv in H1 as [H1 L1]; auto. unfold pop_inv. cbn. split; [congruence|]. auto.
Qed.



Lemma apply_inv st r st' : st_inv st -> pop_inv (tr_pop r) -> Forall Pd (ps_pop (tr_pop r)) -> Forall Pd (tr_sub r) -> (forall c m, stored (tr_seen r) c m -> Po m) ->
  tr_cur r <= maxsize -> apply_task_result S0 st r = Ok st' -> st_inv st'.
Proof.
  intros [I1 I2 I3 I4] Hp Hd Hs Hseen Hc H. unfold apply_task_result in H. cbv zeta in H. apply bind_ok in H as (subs & H1 & H). apply bind_ok in H as (x & H2 & H). apply bind_ok in H as (h1 & H3 & H).
  apply bind_ok in H as ([h2 b] & H4 & H). apply bind_ok in H as (ps1 & H5 & H). apply bind_ok in H as (ps2 & H6 & H). apply bind_ok in H as (pops & H7 & H).
  injection H as <-.
  assert (Hsubs : Forall (Forall Pd) subs).
  { unfold set_index in H1. destruct (_ <? _); [|discriminate]. injection H1 as <-. apply Forall_forall. intros l Hl. apply In_nth_error in Hl as (j & Hj).
    apply nth_error_upd_cases in Hj as [[_ ->]|[_ Hj]]; auto. rewrite Forall_forall in I2. apply I2. eapply nth_error_In; eauto. }
  apply offer_inv in H3; auto; [|apply hall_members_inv; auto]. eapply offer_best_inv in H4 as [H4 Hb]; eauto.
  assert (P1 : pop_inv ps1).
  { destruct (sc_migration S0); [|injection H5 as <-; auto]. eapply migrate_inv; [exact Hp| |exact H5]. apply Forall_forall. intros m Hm.
    apply others_in in Hm as (j & l & _ & Hj & Hm). apply HPdp. rewrite Forall_forall in Hsubs. specialize (Hsubs l (nth_error_In _ _ Hj)). rewrite Forall_forall in Hsubs. auto. }
  assert (P2 : pop_inv ps2).
  { destruct (sc_hof_migration S0) eqn:Eh; [|injection H6 as <-; auto]. eapply migrate_inv; [exact P1| |exact H6]. apply Forall_forall. intros m Hm.
    unfold pareto_front in Hm. apply pareto_in in Hm. apply HPof; auto. revert m Hm. apply Forall_forall, hall_members_inv. intros c m Hm. apply H4 in Hm. tauto. }
  split; cbn; auto. intros ps Hin. unfold set_index in H7. destruct (_ <? _); [|discriminate]. injection H7 as <-. apply in_upd in Hin as [Hin|Hin]; auto. injection Hin as ->. auto.
Qed.

Lemma dispatch_inv st i st' t : st_inv st -> dispatch S0 st i = Ok (Some (st', t)) -> st_inv st' /\ pop_inv (tk_pop t) /\ tk_cur t <= maxsize.
Proof.
  intros [I1 I2 I3 I4] H. apply dispatch_some in H as (D1 & D2 & D3 & D4 & D5 & D6 & _ & _ & _ & _ & _ & D7). split; [|split].
  - split; rewrite ?D4, ?D5, ?D6; auto. intros ps Hin. rewrite D3 in Hin. apply in_upd in Hin as [Hin|Hin]; [auto|discriminate].
  - apply I1. eapply nth_error_In; eauto.
  - eapply Hlim; eauto.
Qed.
Lemma deliver_inv st t r st' : st_inv st -> pop_inv (tk_pop t) -> tk_cur t <= maxsize -> execute_task S0 full bl t = Ok r -> apply_task_result S0 st r = Ok st' -> st_inv st'.
Proof.
  intros Hst Hp Hc He Ha. destruct (Htask t r Hp Hc He) as (R1 & R2 & R3). pose proof (execute_idx S0 _ _ _ _ He) as [_ Ec]. eapply apply_inv; eauto.
  - apply Forall_forall. intros m Hm. rewrite Forall_forall in R2. apply R2. eapply execute_sub; eauto.
  - rewrite Ec. auto.
Qed.
Lemma with_order_inv st g : st_inv st -> st_inv (with_order st g).
Proof. intros [I1 I2 I3 I4]. split; auto. Qed.

Lemma cstep_inv nw c1 e c2 : co_inv c1 -> cstep S0 full bl nw c1 e c2 -> co_inv c2.
Proof.
  intros [Hst Hf] Hs. inversion Hs; subst; cbn [co_st co_flight] in *.
  - split; [apply with_order_inv; auto|auto].
  - split; auto.
  - apply dispatch_inv in H0 as (H1 & H2 & H3); auto. split; auto. cbn. intros t0 Ht. apply in_app_or in Ht as [Ht|[<-|[]]]; auto.
  - destruct (Hf t) as [H2 H3]; [apply in_or_app; right; left; auto|]. split; [eapply deliver_inv; eauto|].
    cbn. intros t0 Ht. apply Hf. apply in_app_or in Ht as [Ht|Ht]; apply in_or_app; [left|right; right]; auto.
Qed.
Lemma csteps_inv nw c1 es c2 : co_inv c1 -> csteps S0 full bl nw c1 es c2 -> co_inv c2.
Proof. intros Hc H. induction H; auto. apply IHcsteps. eapply cstep_inv; eauto. Qed.
Lemma advances_inv st l st' : st_inv st -> advances S0 full bl st l st' -> st_inv st'.
Proof.
  intros Hst H. induction H; [apply with_order_inv; auto|]. apply IHadvances. destruct H as (st3 & t & r & Hd & He & Ha).
  apply dispatch_inv in Hd as (H1 & H2 & H3); [|apply with_order_inv; auto]. eapply deliver_inv; eauto.
Qed.

(** The start. *)
Hypothesis Hnew : forall e g g' id b m m' ev ev' ok, random_expr_append_ops F (ec_D C) (eo_reg E) (ds_n_features full) 3 maxsize g = Ok (e, g') ->
  from_expr C id None b e (ds_n_features full) = Ok m -> ready (ds_n_rows full) ev -> evaluate C m full bl ev = Ok (m', ev', ok) -> Pd m'.

Lemma init_members_inv : forall n s h ms s' h', ready (ds_n_rows full) (es_ev s) -> hall_inv h -> init_members S0 n full bl s h = Ok (ms, s', h') ->
  Forall Pd ms /\ ready (ds_n_rows full) (es_ev s') /\ hall_inv h'.
Proof.
  induction n as [|n IH]; intros s h ms s' h' Hr Hh H; cbn [init_members] in H; [injection H as <- <- <-; auto|].
  apply bind_ok in H as ([e g] & H0 & H). apply bind_ok in H as (m & H1 & H). apply bind_ok in H as ([[m1 ev] ok] & H2 & H). apply bind_ok in H as (h1 & H3 & H).
  apply bind_ok in H as ([[ms1 s1] h2] & H4 & H). injection H as <- <- <-. pose proof (Hnew _ _ _ _ _ _ _ _ _ _ H0 H1 Hr H2) as Hm.
  apply consider_inv in H3; auto. apply IH in H4 as (? & ? & ?); auto. cbn. eapply evaluate_ready; eauto.
Qed.
Lemma init_pops_inv : forall n i h ps h', hall_inv h -> init_pops S0 n i full bl h = Ok (ps, h') ->
  Forall (fun p => pop_inv p /\ Forall Pd (ps_pop p)) ps /\ hall_inv h'.
Proof.
  induction n as [|n IH]; intros i h ps h' Hh H; cbn [init_pops] in H; [injection H as <- <-; auto|].
  apply bind_ok in H as ([[ms s] h1] & H1 & H). apply bind_ok in H as ([ps1 h2] & H2 & H). injection H as <- <-.
  pose proof (init_members_home S0 _ _ _ _ _ _ _ _ H1) as L. apply init_members_inv in H1 as (M1 & M2 & M3); auto.
  2:{ cbn. split; cbn; [apply fill_length|reflexivity]. }
  apply IH in H2 as [? ?]; auto. split; auto. constructor; auto. split; auto. split; [exact L|]. split; [|exact M2]. eapply Forall_impl; [|exact M1]. auto.
Qed.
Lemma hall_new_inv : hall_inv (hof_new maxsize).
Proof.
  split; [unfold hof_new; apply fill_length|]. intros c m Hst. unfold stored, hof_new, fill in Hst. apply nth_error_In, repeat_spec in Hst. discriminate.
Qed.
Lemma init_inv st : init_search S0 full bl = Ok st -> st_inv st.
Proof.
  unfold init_search. intros H. apply bind_ok in H as ([ps h] & H1 & H). apply bind_ok in H as (b & Hb & H). apply bind_ok in H as (b1 & Hb1 & H). apply bind_ok in H as (subs & H2 & H).
  injection H as <-. apply init_pops_inv in H1 as [H1 Hh]; [|apply hall_new_inv]. rewrite Forall_forall in H1. split; cbn; auto.
  - intros p Hp. apply in_map_iff in Hp as (q & Eq & Hq). injection Eq as ->. apply H1; auto.
  - apply Forall_forall. intros l Hl. apply Forall_forall. intros m Hm.
    assert (G : forall ps subs, mapM (fun p => best_sub_pop F (ps_pop p) (sc_topn S0)) ps = Ok subs -> In l subs -> exists p, In p ps /\ In m (ps_pop p)).
    { clear - Hm. induction ps as [|p ps IH]; intros subs H Hl; cbn in H; [injection H as <-; destruct Hl|].
      apply bind_ok in H as (y & Hy & H). apply bind_ok in H as (l1 & H1 & H). injection H as <-. destruct Hl as [->|Hl].
      - exists p. split; [left; auto|]. eapply best_sub_in; eauto.
      - destruct (IH _ H1 Hl) as (q & Hq & Hm'). exists q. split; [right|]; auto. }
    destruct (G _ _ H2 Hl) as (p & Hp & Hin). destruct (H1 p Hp) as [_ Hd]. rewrite Forall_forall in Hd. auto.
  - apply init_best_in in Hb as [->|(m & -> & Hm)].
    + apply bind_ok in Hb1 as (p & Hp & Hb1). destruct ps as [|p0 ps]; [discriminate|]. cbn in Hp. injection Hp as ->. destruct (H1 p) as [_ Hd]; [left; auto|].
      unfold index in Hb1. destruct (nth_error (ps_pop p) 0) eqn:En; [|discriminate]. cbn in Hb1. injection Hb1 as ->. rewrite Forall_forall in Hd. apply Hd. eapply nth_error_In; eauto.
    + injection Hb1 as <-. apply in_concat in Hm as (l & Hl & Hm). apply in_map_iff in Hl as (p & <- & Hp). destruct (H1 p Hp) as [_ Hd]. rewrite Forall_forall in Hd. auto.
Qed.
End Invariant.
