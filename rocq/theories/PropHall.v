(** Property C67: the hall of fame a search reports is the best, complexity by complexity, of everything the search has produced. *)
From Coq Require Import QArith.
From Verif Require Import Base BaseLemmas Node Tree Compile Eval Deriv Simplify Rng Registry Mutation Complexity ComplexitySpec PropComplexity Num Member PropHof Selection
  Conditioning Dataset Loss PropLoss Optim PropOptim ConstOpt Evolution PropEvolution Search PropSearch PropIds Ready Invariant PropWhole PropBest PropCosts Instances.
Local Open Scope nat_scope.

(** ** Specification *)

(** What the search has to offer: the initial members, at the final size limit; then, for each task result it receives, the members seen during the task and the
    members of the population that comes back, at the task's size limit. *)
Definition first_offers {T} (maxsize : nat) (st : search_st T) : list (member T * nat) :=
  map (fun m => (m, maxsize)) (flat_map (fun p => match p with Some ps => ps_pop ps | None => [] end) (ss_pops st)).
Definition offers {T} (r : task_result T) : list (member T * nat) := map (fun m => (m, tr_cur r)) (hof_members (tr_seen r) ++ ps_pop (tr_pop r)).

(** [slot] is what a hall of fame should hold at complexity [k] after the offers [os], made in that order: nothing if none is feasible and of that complexity, otherwise
    one of them, such that none is cheaper and every earlier one (with a cost that is a number) is dearer. *)
Definition champion {T} (F : FloatOps T) (o : size_opts) (k : nat) (os : list (member T * nat)) (slot : option (member T)) : Prop :=
  match slot with
  | None => forall p, In p os -> ~ competes o k p
  | Some m => exists before cur after, os = before ++ (m, cur) :: after /\ competes o k (m, cur)
      /\ (forall p, In p os -> competes o k p -> fltb F (m_cost (fst p)) (m_cost m) = false)
      /\ (forall p, In p before -> competes o k p -> num F (m_cost (fst p)) -> fltb F (m_cost m) (m_cost (fst p)) = true)
  end.

(** A run of the coordinator with the results it receives, in the order of their arrival; and of the stepwise engine. *)
Inductive receives {T W} (S0 : search_cfg T W) (full : dataset T) (bl : option T) (nw : nat) : @coord T -> list (task_result T) -> @coord T -> Prop :=
| RcNil c : receives S0 full bl nw c [] c
| RcOther c1 e c2 rs c3 : cstep S0 full bl nw c1 e c2 -> (forall i, e <> Deliver i) -> receives S0 full bl nw c2 rs c3 -> receives S0 full bl nw c1 rs c3
| RcDeliver c1 r c2 rs c3 : delivery S0 full bl nw c1 r c2 -> receives S0 full bl nw c2 rs c3 -> receives S0 full bl nw c1 (r :: rs) c3.
Inductive turns {T W} (S0 : search_cfg T W) (full : dataset T) (bl : option T) : search_st T -> list (task_result T) -> search_st T -> Prop :=
| TnNil st g : turns S0 full bl st [] (with_order st g)
| TnCons st r st1 rs st2 : turn S0 full bl st r st1 -> turns S0 full bl st1 rs st2 -> turns S0 full bl st (r :: rs) st2.

(** A population at some moment between the evolution cycles of a task: at the start, or after a cycle. *)
Inductive visits {T} (E : evo_cfg T) (d : dataset T) (bl : option T) (cur : nat) (st : stats T) (n : nat) : list nat -> list (member T) -> evo_st T -> list (member T) -> Prop :=
| VsHere idx pop s : visits E d bl cur st n idx pop s pop
| VsNext i idx pop s pop1 s1 k q : reg_evol_cycle E pop s d bl (temperature_at E i n) cur st = Ok (pop1, s1, k) ->
    visits E d bl cur st n idx pop1 s1 q -> visits E d bl cur st n (i :: idx) pop s q.
(** [m] is in task [t]'s population at such a moment. *)
Definition seen_by {T W} (S0 : search_cfg T W) (full : dataset T) (bl : option T) (t : task T) (m : member T) : Prop :=
  exists d ps q, phase S0 full (tk_pop t) = Ok (d, ps) /\ In m q
    /\ let n := Nat.max (eo_ncycles (sc_E S0)) 1 in visits (sc_E S0) d bl (tk_cur t) (tk_stats t) n (seq 0 n) (ps_pop ps) (ps_st ps) q.

(** ** Lemmas *)
Section Hall.
Context {T W : Type} (S0 : search_cfg T W) (full : dataset T) (bl : option T) (B : nat) (H : search_ok S0 full B).
Local Notation E := (sc_E S0).
Local Notation C := (eo_C (sc_E S0)).
Local Notation F := (ec_F (eo_C (sc_E S0))).
Local Notation maxsize := (sel_maxsize (eo_sel (sc_E S0))).
Local Notation nf := (ds_n_features full).
Local Notation P0 := (sound (sc_E S0) (ds_n_features full) B bl).
Local Notation offer_ h l := (offer_all F (ec_umax C) (ec_D C) (ec_size C) (eo_stale E) h l).

Lemma offer_all_app h a b : offer_ h (a ++ b) = (let! h1 := offer_ h a in offer_ h1 b).
Proof. unfold offer_all. apply foldM_app. Qed.

Lemma offer_best_hall cur : forall ms h b h' b', offer_best S0 ms h b cur = Ok (h', b') -> offer_ h (map (fun m => (m, cur)) ms) = Ok h'.
Proof.
  induction ms as [|m ms IH]; intros h b h' b' Ho; cbn [offer_best] in Ho; [injection Ho as <- _; reflexivity|].
  apply bind_ok in Ho as (h1 & H1 & Ho). apply bind_ok in Ho as (ok & _ & Ho). apply IH in Ho. unfold offer_all in *. cbn [map foldM fst snd]. rewrite H1. exact Ho.
Qed.
Lemma apply_hall st r st' : apply_task_result S0 st r = Ok st' -> offer_ (ss_hall st) (offers r) = Ok (ss_hall st').
Proof.
  unfold apply_task_result. cbv zeta. intros Ha. apply bind_ok in Ha as (subs & _ & Ha). apply bind_ok in Ha as (x & _ & Ha). apply bind_ok in Ha as (h1 & H1 & Ha).
  apply bind_ok in Ha as ([h2 b] & H2 & Ha). apply bind_ok in Ha as (ps1 & _ & Ha). apply bind_ok in Ha as (ps2 & _ & Ha). apply bind_ok in Ha as (pops & _ & Ha).
  injection Ha as <-. cbn [ss_hall]. unfold offers. rewrite map_app, offer_all_app. unfold offer, update_hof in H1. rewrite update_from_members_offers in H1. rewrite H1. cbn [bind].
  eapply offer_best_hall; eauto.
Qed.
Lemma init_members_hall : forall n s h ms s' h', init_members S0 n full bl s h = Ok (ms, s', h') -> offer_ h (map (fun m => (m, maxsize)) ms) = Ok h'.
Proof.
  induction n as [|n IH]; intros s h ms s' h' Hi; cbn [init_members] in Hi; [injection Hi as <- _ <-; reflexivity|].
  apply bind_ok in Hi as ([e g] & _ & Hi). apply bind_ok in Hi as (m & _ & Hi). apply bind_ok in Hi as ([[m1 ev] ok] & _ & Hi). apply bind_ok in Hi as (h1 & H3 & Hi).
  apply bind_ok in Hi as ([[ms1 s1] h2] & H4 & Hi). injection Hi as <- _ <-. apply IH in H4. unfold offer_all in *. cbn [map foldM fst snd]. rewrite H3. exact H4.
Qed.
Lemma init_pops_hall : forall n i h ps h', init_pops S0 n i full bl h = Ok (ps, h') -> offer_ h (map (fun m => (m, maxsize)) (flat_map ps_pop ps)) = Ok h'.
Proof.
  induction n as [|n IH]; intros i h ps h' Hi; cbn [init_pops] in Hi; [injection Hi as <- <-; reflexivity|].
  apply bind_ok in Hi as ([[ms s] h1] & H1 & Hi). apply bind_ok in Hi as ([ps1 h2] & H2 & Hi). injection Hi as <- <-. cbn [flat_map ps_pop].
  rewrite map_app, offer_all_app. apply init_members_hall in H1. rewrite H1. cbn [bind]. eapply IH; eauto.
Qed.
Lemma init_hall st : init_search S0 full bl = Ok st -> offer_ (hof_new maxsize) (first_offers maxsize st) = Ok (ss_hall st).
Proof.
  unfold init_search. intros Hi. apply bind_ok in Hi as ([ps h] & H1 & Hi). apply bind_ok in Hi as (b & _ & Hi). apply bind_ok in Hi as (b1 & _ & Hi). apply bind_ok in Hi as (subs & _ & Hi).
  injection Hi as <-. unfold first_offers. cbn [ss_pops ss_hall]. apply init_pops_hall in H1. rewrite <- H1. do 2 f_equal. clear. induction ps; cbn; congruence.
Qed.

(** Runs and results. *)
Lemma csteps_receives nw c1 es c2 : csteps S0 full bl nw c1 es c2 -> exists rs, receives S0 full bl nw c1 rs c2.
Proof.
  induction 1 as [c|c1 e c2 es c3 Hs _ (rs & IH)]; [exists []; constructor|].
  destruct e; try (exists rs; eapply RcOther; [exact Hs|discriminate|exact IH]).
  inversion Hs; subst. exists (r :: rs). eapply RcDeliver; [|exact IH]. exists t. cbn [co_flight co_st]. split; [apply in_app_iff; right; left; auto|]. auto.
Qed.
Lemma receives_csteps nw c1 rs c2 : receives S0 full bl nw c1 rs c2 -> exists es, csteps S0 full bl nw c1 es c2.
Proof.
  induction 1 as [c|c1 e c2 rs c3 Hs _ _ (es & IH)|c1 r c2 rs c3 (t & _ & _ & _ & Hs) _ (es & IH)]; [exists []; constructor|..]; eexists; econstructor; eauto.
Qed.
Lemma receives_app nw c1 rs c2 rs' c3 : receives S0 full bl nw c1 rs c2 -> receives S0 full bl nw c2 rs' c3 -> receives S0 full bl nw c1 (rs ++ rs') c3.
Proof. induction 1 as [c|c1 e c2 rs c4 Hs He _ IH|c1 r c2 rs c4 Hd _ IH]; intros Hr; cbn [List.app]; auto; [eapply RcOther|eapply RcDeliver]; eauto. Qed.
Lemma cstep_hall nw c1 e c2 : cstep S0 full bl nw c1 e c2 -> (forall i, e <> Deliver i) -> ss_hall (co_st c2) = ss_hall (co_st c1).
Proof. intros Hs He. destruct Hs; cbn [co_st]; auto; [apply dispatch_some in H1; tauto|]. exfalso. eapply He; eauto. Qed.
Lemma receives_hall nw c1 rs c2 : receives S0 full bl nw c1 rs c2 -> offer_ (ss_hall (co_st c1)) (flat_map offers rs) = Ok (ss_hall (co_st c2)).
Proof.
  induction 1 as [c|c1 e c2 rs c3 Hs He _ IH|c1 r c2 rs c3 (t & _ & _ & Ha & Hs) _ IH]; [reflexivity|..].
  - now rewrite <- (cstep_hall _ _ _ _ Hs He).
  - cbn [flat_map]. rewrite offer_all_app. apply apply_hall in Ha. rewrite Ha. exact IH.
Qed.
Lemma advances_turns st l st' : advances S0 full bl st l st' -> exists rs, turns S0 full bl st rs st' /\ map tr_idx rs = l.
Proof.
  induction 1 as [st g|st g i st1 l st2 (s1 & t & r & Hd & Hx & Ha) _ (rs & IH & El)]; [exists []; split; [constructor|auto]|].
  exists (r :: rs). split; [econstructor; [|exact IH]; exists g, i, s1, t; auto|]. cbn. f_equal; auto. apply execute_idx in Hx as [-> _]. apply dispatch_some in Hd. tauto.
Qed.
Lemma turns_advances st rs st' : turns S0 full bl st rs st' -> exists l, advances S0 full bl st l st'.
Proof.
  induction 1 as [st g|st r st1 rs st2 (g & i & s1 & t & Hd & Hx & Ha) _ (l & IH)]; [exists []; constructor|]. exists (i :: l). eapply (AdvCons _ _ _ st g); [|exact IH]. exists s1, t, r. auto.
Qed.
Lemma turns_hall st rs st' : turns S0 full bl st rs st' -> offer_ (ss_hall st) (flat_map offers rs) = Ok (ss_hall st').
Proof.
  induction 1 as [st g|st r st1 rs st2 (g & i & s1 & t & Hd & Hx & Ha) _ IH]; [reflexivity|]. cbn [flat_map]. rewrite offer_all_app.
  apply apply_hall in Ha. apply dispatch_some in Hd as (_ & _ & _ & _ & _ & D & _).
  rewrite D in Ha. cbn [with_order ss_hall] in Ha. rewrite Ha. exact IH.
Qed.

(** Every offer is valid. *)
Lemma received_sound nw c1 rs c2 : co_inv S0 full P0 P0 P0 (within E maxsize) c1 -> receives S0 full bl nw c1 rs c2 ->
  Forall (fun p => P0 (fst p) /\ snd p <= maxsize) (flat_map offers rs).
Proof.
  intros Hi Hr. destruct (sound_inv S0 full bl B H) as (_ & V2 & _).
  assert (V2' : forall c1 e c2, co_inv S0 full P0 P0 P0 (within E maxsize) c1 -> cstep S0 full bl nw c1 e c2 -> co_inv S0 full P0 P0 P0 (within E maxsize) c2)
    by (intros a e b Ha Hs; apply (V2 nw a [e] b Ha); econstructor; [exact Hs|constructor]).
  induction Hr as [c|c1 e c2 rs c3 Hs He _ IH|c1 r c2 rs c3 Hd _ IH]; cbn [flat_map]; auto; [apply IH; eauto|].
  pose proof Hd as (t & Ht & Hx & Ha & Hs). apply Forall_app. split; [|apply IH; eauto]. destruct Hi as [_ Hf]. destruct (Hf t Ht) as ((L & S1 & R) & Hc).
  destruct (task_sound S0 full bl B H t r L S1 R Hc Hx) as (_ & Hp & _ & Hh). apply execute_idx in Hx as [_ Ec]. unfold offers. rewrite Ec. apply Forall_map, Forall_forall.
  intros m Hm. cbn. split; auto. apply in_app_or in Hm as [Hm|Hm]; [|rewrite Forall_forall in Hp; auto].
  apply In_nth_error in Hm as (i & Hm). apply hof_members_nth in Hm as (k & Hm & _). eapply Hh; eauto.
Qed.
Lemma turns_sound st rs st' : st_inv S0 full P0 P0 P0 (within E maxsize) st -> turns S0 full bl st rs st' ->
  Forall (fun p => P0 (fst p) /\ snd p <= maxsize) (flat_map offers rs).
Proof.
  intros Hi Hr. destruct (sound_inv S0 full bl B H) as (_ & _ & V3).
  induction Hr as [st g|st r st1 rs st2 (g & i & s1 & t & Hd & Hx & Ha) _ IH]; cbn [flat_map]; auto.
  assert (Hi' : st_inv S0 full P0 P0 P0 (within E maxsize) (with_order st g)) by (destruct Hi; split; auto).
  apply Forall_app. split.
  - pose proof (dispatch_some _ _ _ _ _ Hd) as (D1 & _ & _ & _ & _ & _ & _ & _ & _ & _ & _ & D9). pose proof (nth_error_In _ _ D1) as Hin.
    assert (Hp : pop_inv S0 full P0 (tk_pop t)) by (destruct Hi'; auto). destruct Hp as (L & S1 & R). assert (Hc : tk_cur t <= maxsize) by (eapply sk_limit; eauto).
    destruct (task_sound S0 full bl B H t r L S1 R Hc Hx) as (_ & Hp & _ & Hh). apply execute_idx in Hx as [_ Ec]. unfold offers. rewrite Ec. apply Forall_map, Forall_forall.
    intros m Hm. cbn. split; auto. apply in_app_or in Hm as [Hm|Hm]; [|rewrite Forall_forall in Hp; auto].
    apply In_nth_error in Hm as (j & Hm). apply hof_members_nth in Hm as (k & Hm & _). eapply Hh; eauto.
  - apply IH. apply (V3 st [i] st1 Hi). econstructor; [exists s1, t, r; eauto|]. assert (Hid : st1 = with_order st1 (ss_order st1)) by (destruct st1; reflexivity). rewrite Hid at 2. constructor.
Qed.
Lemma first_sound st : init_search S0 full bl = Ok st -> Forall (fun p => P0 (fst p) /\ snd p <= maxsize) (first_offers maxsize st).
Proof.
  intros Hi. destruct (sound_inv S0 full bl B H) as (V1 & _). apply V1 in Hi as [I1 _ _ _]. unfold first_offers. apply Forall_map, Forall_forall. intros m Hm. cbn. split; auto.
  apply in_flat_map in Hm as ([ps|] & Hp & Hm); [|destruct Hm]. apply I1 in Hp as (_ & Hp & _). rewrite Forall_forall in Hp. auto.
Qed.
Lemma offers_champions os h : OrderLaws F -> Forall (fun p => P0 (fst p) /\ snd p <= maxsize) os -> offer_ (hof_new maxsize) os = Ok h ->
  List.length h = maxsize + 1 /\ nth_error h 0 = Some None
  /\ forall k, 1 <= k <= maxsize -> exists slot, nth_error h k = Some slot /\ champion F (ec_size C) k os slot.
Proof.
  intros O Hos Ho. destruct (C24_hall_of_fame T F (ec_umax C) (ec_D C) nf (reg_known (eo_reg E)) (ec_size C) (eo_stale E) maxsize os O) as (h' & Eh & R).
  - apply (ok_widths _ _ _ _ (sk_evo _ _ _ H)).
  - eapply Forall_impl; [|exact Hos]. cbn. intros p [Hp Hc]. split.
    + apply (expr_of_wf E nf B _ (so_expr _ _ _ _ _ Hp)).
    + pose proof (w_umax _ _ _ (ok_widths _ _ _ _ (sk_evo _ _ _ H))). pose proof (ok_small _ _ _ _ (sk_evo _ _ _ H)). pose proof (ok_cur _ _ _ _ (sk_evo _ _ _ H)). lia.
  - rewrite Ho in Eh. injection Eh as <-. exact R.
Qed.

(** What a task saw. *)
Lemma stored_member (h : hof T) k x : nth_error h k = Some (Some x) -> In x (hof_members h).
Proof. revert k. induction h as [|[y|] h IH]; intros [|k] Hn; try discriminate; cbn in *; [injection Hn as ->; auto|right; eauto|eauto]. Qed.
Lemma feasible_range cur m : cur <= maxsize -> P0 m -> within E cur (m_expr m) -> 1 <= m_complexity m <= cur.
Proof.
  intros Hcur [Hw _ Hm _] (t & Hr & _ & Hc & _). rewrite cost_nodes in Hc. unfold represents in Hr. rewrite Hm, Hr.
  pose proof (sum_ge_length (node_cost (ec_size C)) (flatten t) (ok_pos _ _ _ _ (sk_evo _ _ _ H))).
  pose proof (w_umax _ _ _ (ok_widths _ _ _ _ (sk_evo _ _ _ H))). unfold u16_max in *. assert (1 <= List.length (flatten t)) by (destruct t; cbn; rewrite ?app_length; cbn; lia). lia.
Qed.
Lemma sr_cycles_seen d st n cur : cur <= maxsize -> ds_n_features d = nf -> forall idx pop s best ev pop' s' best' k,
  Forall P0 pop -> sr_cycles E idx n pop s best d bl cur st ev = Ok (pop', s', best', k) ->
  exists hist, offer_ best hist = Ok best' /\ Forall (fun p => P0 (fst p) /\ snd p = cur) hist
    /\ forall q m, visits E d bl cur st n idx pop s q -> In m q -> In m pop \/ In (m, cur) hist.
Proof.
  intros Hcur Hnf. induction idx as [|i idx IH]; intros pop s best ev pop' s' best' k Hp Hs; cbn in Hs.
  - injection Hs as _ _ <- _. exists []. split; [reflexivity|]. split; auto. intros q m Hv Hm. inversion Hv; subst. auto.
  - apply bind_ok in Hs as ([[p1 s1] k1] & H1 & Hs). pose proof (evo_at S0 full B H _ Hcur) as He.
    pose proof (C42_cycle T E nf B cur bl _ _ _ _ _ _ _ _ He Hp Hnf H1) as [_ Hp1].
    assert (Hs1 : Forall P0 p1) by (apply Forall_forall; intros m Hm; apply Hp1; auto).
    apply bind_ok in Hs as (b1 & Hb & Hs). unfold update_hof in Hb. rewrite update_from_members_offers in Hb. apply IH in Hs as (hist & Ho & Hf & Hv); auto.
    exists (map (fun m => (m, cur)) p1 ++ hist). split; [rewrite offer_all_app, Hb; exact Ho|]. split.
    + apply Forall_app. split; auto. apply Forall_map. cbn. eapply Forall_impl; [|exact Hs1]. auto.
    + intros q m Hq Hm. inversion Hq; subst; auto. right.
      match goal with HH : reg_evol_cycle _ _ _ _ _ _ _ _ = Ok (?a, _, _), HV : visits _ _ _ _ _ _ idx ?a _ _ |- _ => rewrite H1 in HH; injection HH as <- <- <-; destruct (Hv q m HV Hm) as [Hi|Hi] end; apply in_or_app; auto. left. apply in_map_iff. eauto.
Qed.
Lemma task_seen t r : pop_inv S0 full P0 (tk_pop t) -> tk_cur t <= maxsize -> execute_task S0 full bl t = Ok r -> OrderLaws F ->
  forall m, seen_by S0 full bl t m -> within E (tk_cur t) (m_expr m) ->
  P0 m /\ exists x, In x (hof_members (tr_seen r)) /\ competes (ec_size C) (m_complexity m) (x, tr_cur r) /\ fltb F (m_cost m) (m_cost x) = false.
Proof.
  intros (L & Hp & R) Hcur Hx O m (d & ps & q & Hph & Hm & Hv) Hw. cbv zeta in Hv. pose proof (execute_idx _ _ _ _ _ Hx) as [_ Ec]. rewrite Ec. unfold execute_task in Hx. rewrite Hph in Hx. cbn [bind] in Hx.
  apply bind_ok in Hx as ([[[p1 s1] h1] k1] & C1 & Hx). apply bind_ok in Hx as ([d2 ps2] & _ & Hx). apply bind_ok in Hx as ([[[p2 s2] gc] k2] & _ & Hx).
  apply bind_ok in Hx as (sub & _ & Hx). injection Hx as <-. cbn [tr_seen]. apply phase_frame in Hph as (A1 & A2 & _). rewrite A2 in *.
  unfold s_r_cycle in C1. apply bind_ok in C1 as (b0 & Hb & C1). unfold update_hof in Hb. rewrite update_from_members_offers in Hb.
  destruct (sr_cycles_seen d (tk_stats t) _ (tk_cur t) Hcur A1 _ _ _ _ _ _ _ _ _ Hp C1) as (hist & Ho & Hf & Hin).
  assert (Hi : In (m, tk_cur t) (map (fun m => (m, tk_cur t)) (ps_pop (tk_pop t)) ++ hist)).
  { apply in_or_app. destruct (Hin q m Hv Hm); auto. left. apply in_map_iff. eauto. }
  assert (Hall : Forall (fun p => P0 (fst p) /\ snd p = tk_cur t) (map (fun m => (m, tk_cur t)) (ps_pop (tk_pop t)) ++ hist)).
  { apply Forall_app. split; auto. apply Forall_map. cbn. eapply Forall_impl; [|exact Hp]. auto. }
  set (os := map (fun m => (m, tk_cur t)) (ps_pop (tk_pop t)) ++ hist) in *.
  assert (Hos : Forall (fun p => P0 (fst p) /\ snd p <= maxsize) os) by (eapply Forall_impl; [|exact Hall]; cbn; intros p [? ->]; auto).
  destruct (offers_champions os h1 O Hos) as (_ & _ & Hk). { unfold os. rewrite offer_all_app, Hb. exact Ho. }
  rewrite Forall_forall in Hall. destruct (Hall _ Hi) as [Hs _]. cbn [fst] in Hs. split; auto.
  pose proof (feasible_range _ _ Hcur Hs Hw) as Hr. destruct (Hk (m_complexity m)) as (slot & Hn & Hch); [lia|]. destruct slot as [x|].
  - destruct Hch as (bf & cx & af & Eo & Hc & Hbest & _). exists x. split; [|split].
    + apply (stored_member h1 _ _ Hn).
    + destruct (Hall (x, cx)) as [_ Ecx]; [rewrite Eo; apply in_or_app; right; left; auto|]. cbn in Ecx. subst cx. exact Hc.
    + apply (Hbest (m, tk_cur t) Hi). split; auto.
  - exfalso. apply (Hch _ Hi). split; auto.
Qed.
End Hall.

(** ** C67 *)

(** At every moment of a parallel search, under every schedule: each slot of the hall of fame holds the champion of that complexity among the initial members and
    everything the results received so far had to offer. *)
Theorem C67_parallel : forall (T W : Type) (S0 : search_cfg T W) full bl B threads st0 es c,
  search_ok S0 full B -> init_search S0 full bl = Ok st0 ->
  let nw := n_workers S0 threads in let E := sc_E S0 in let F := ec_F (eo_C E) in let maxsize := sel_maxsize (eo_sel E) in
  OrderLaws F -> csteps S0 full bl nw (parallel_start S0 st0) es c ->
  exists rs, receives S0 full bl nw (parallel_start S0 st0) rs c
    /\ List.length (ss_hall (co_st c)) = maxsize + 1 /\ nth_error (ss_hall (co_st c)) 0 = Some None
    /\ forall k, 1 <= k <= maxsize -> exists slot, nth_error (ss_hall (co_st c)) k = Some slot
         /\ champion F (ec_size (eo_C E)) k (first_offers maxsize st0 ++ flat_map offers rs) slot.
Proof.
  intros T W S0 full bl B th st0 es c H Hi nw E F maxsize O Hc. destruct (csteps_receives S0 full bl nw _ _ _ Hc) as (rs & Hr). exists rs. split; auto.
  apply (offers_champions S0 full bl B H); auto.
  - apply Forall_app. split; [apply (first_sound S0 full bl B H); auto|]. eapply (received_sound S0 full bl B H); [|exact Hr].
    destruct (sound_inv S0 full bl B H) as (V1 & _). split; [apply V1; auto|intros t []].
  - subst maxsize E F. rewrite offer_all_app. rewrite (init_hall S0 full bl st0 Hi). cbn [bind]. apply (receives_hall S0 full bl nw _ _ _ Hr).
Qed.

(** The stepwise engine: the same, whatever steps have been made. *)
Theorem C67_engine : forall (T W : Type) (S0 : search_cfg T W) full B en0 ns en ks,
  search_ok S0 full B -> engine_new S0 full = Ok en0 ->
  let E := sc_E S0 in let F := ec_F (eo_C E) in let maxsize := sel_maxsize (eo_sel E) in
  OrderLaws F -> steps S0 en0 ns = Ok (en, ks) ->
  exists rs, turns S0 full (en_bl en0) (en_st en0) rs (en_st en) /\ List.length rs = PropSearch.sum ks
    /\ List.length (ss_hall (en_st en)) = maxsize + 1 /\ nth_error (ss_hall (en_st en)) 0 = Some None
    /\ forall k, 1 <= k <= maxsize -> exists slot, nth_error (ss_hall (en_st en)) k = Some slot
         /\ champion F (ec_size (eo_C E)) k (first_offers maxsize (en_st en0) ++ flat_map offers rs) slot.
Proof.
  intros T W S0 full B en0 ns en ks H Hn E F maxsize O Hs. destruct (C37_cycles T W S0 full en0 ns en ks Hn Hs) as (l & Ha & L & _).
  destruct (advances_turns S0 full (en_bl en0) _ _ _ Ha) as (rs & Hr & El). exists rs. split; auto. split. { rewrite L, <- El. symmetry. apply map_length. }
  assert (Hi : init_search S0 full (en_bl en0) = Ok (en_st en0)).
  { unfold engine_new in Hn. apply bind_ok in Hn as (bl' & _ & Hn). apply bind_ok in Hn as (st & Hi & Hn). injection Hn as <-. exact Hi. }
  apply (offers_champions S0 full (en_bl en0) B H); auto.
  - apply Forall_app. split; [apply (first_sound S0 full (en_bl en0) B H); auto|]. eapply (turns_sound S0 full (en_bl en0) B H); [|exact Hr].
    destruct (sound_inv S0 full (en_bl en0) B H) as (V1 & _). apply V1; auto.
  - subst maxsize E F. rewrite offer_all_app. rewrite (init_hall S0 full _ _ Hi). cbn [bind]. apply (turns_hall S0 full (en_bl en0) _ _ _ Hr).
Qed.


(** What a task saw and the hall of fame was offered is kept. *)
Lemma kept {T W} (S0 : search_cfg T W) full bl B t r os h m :
  search_ok S0 full B -> let E := sc_E S0 in let F := ec_F (eo_C E) in
  OrderLaws F -> (forall loss k, numeric F loss -> k <= sel_maxsize (eo_sel E) -> num F (cost_of E loss k bl)) ->
  pop_inv S0 full (sound E (ds_n_features full) B bl) (tk_pop t) ->
  pop_inv S0 full (fun m => sound E (ds_n_features full) B bl m /\ numeric F (m_loss m)) (tk_pop t) -> tk_cur t <= sel_maxsize (eo_sel E) ->
  execute_task S0 full bl t = Ok r -> Forall (fun p => sound E (ds_n_features full) B bl (fst p) /\ snd p <= sel_maxsize (eo_sel E)) os ->
  offer_all F (ec_umax (eo_C E)) (ec_D (eo_C E)) (ec_size (eo_C E)) (eo_stale E) (hof_new (sel_maxsize (eo_sel E))) os = Ok h ->
  (forall x, In x (hof_members (tr_seen r)) -> In (x, tr_cur r) os) ->
  seen_by S0 full bl t m -> within E (tk_cur t) (m_expr m) ->
  exists m', nth_error h (m_complexity m) = Some (Some m') /\ m_complexity m' = m_complexity m /\ fltb F (m_cost m) (m_cost m') = false.
Proof.
  intros H E F O Hnum Hpi Hpn Hcur Hx Hos Hoff Hinc Hseen Hw.
  destruct (task_seen S0 full bl B H t r Hpi Hcur Hx O m Hseen Hw) as (Hs & x & Hxin & Hxc & Hxm).
  destruct (task_numeric S0 full bl B H t r Hpn Hcur Hx) as (_ & _ & Hxn).
  pose proof (feasible_range S0 full bl B H _ m Hcur Hs Hw) as Hk.
  assert (Hnx : num F (m_cost x)).
  { apply In_nth_error in Hxin as (i & Hxi). apply hof_members_nth in Hxi as (k & Hxi & _). destruct (Hxn k x Hxi) as [[_ _ _ Hc] Hnn].
    destruct Hc as [->|[_ ->]]; [|apply (ol_inf_num _ O)]. apply Hnum; auto. destruct Hxc as [Hxc _]. cbn [fst] in Hxc. subst E. lia. }
  destruct (offers_champions S0 full bl B H os h O Hos Hoff) as (_ & _ & Hch).
  destruct (Hch (m_complexity m)) as (slot & Hslot & Hcc); [subst E; lia|]. pose proof (Hinc x Hxin) as Hin.
  destruct slot as [m'|]; [|exfalso; eapply Hcc; eauto]. destruct Hcc as (bf & cm & af & _ & (Em & _) & Hb & _). exists m'. split; auto. split; auto.
  specialize (Hb _ Hin Hxc). cbn [fst] in Hb. destruct (fltb F (m_cost m) (m_cost m')) eqn:Elt; auto. exfalso.
  destruct (ol_num _ O _ _ Elt) as [_ Hn']. destruct (ol_total _ O (m_cost x) (m_cost m') Hnx Hn') as [Hl|[He|Hl]].
  + exact (eq_true_false_abs _ Hl Hb).
  + rewrite <- (ol_eq_r _ O _ _ (m_cost m) He) in Elt. exact (eq_true_false_abs _ Elt Hxm).
  + exact (eq_true_false_abs _ (ol_trans _ O _ _ _ Elt Hl) Hxm).
Qed.
Lemma all_offered {T} (r : task_result T) first rs1 rs2 x : In x (hof_members (tr_seen r)) -> In (x, tr_cur r) (first ++ flat_map offers (rs1 ++ r :: rs2)).
Proof.
  intros Hx. apply in_or_app. right. rewrite flat_map_app. apply in_or_app. right. cbn [flat_map]. apply in_or_app. left. unfold offers. apply in_map_iff. exists x. split; auto. apply in_or_app. auto.
Qed.

(** Nothing a task saw is lost: at every moment of a search, for every task whose result has been received and every member that was in its population at the start or
    after any of its evolution cycles, and was feasible at the task's size limit, the hall of fame holds a member of the same complexity that is no dearer - provided
    costs of finite and infinite losses are not NaN for complexities within maxsize (C50). *)
Theorem C67_nothing_lost : forall (T W : Type) (S0 : search_cfg T W) full bl B threads st0 es1 c1 t r c2 es2 c m,
  search_ok S0 full B -> init_search S0 full bl = Ok st0 ->
  let nw := n_workers S0 threads in let E := sc_E S0 in let F := ec_F (eo_C E) in
  OrderLaws F -> (forall loss k, numeric F loss -> k <= sel_maxsize (eo_sel E) -> num F (cost_of E loss k bl)) ->
  csteps S0 full bl nw (parallel_start S0 st0) es1 c1 -> In t (co_flight c1) ->
  execute_task S0 full bl t = Ok r -> apply_task_result S0 (co_st c1) r = Ok (co_st c2) -> cstep S0 full bl nw c1 (Deliver (tk_idx t)) c2 ->
  csteps S0 full bl nw c2 es2 c ->
  seen_by S0 full bl t m -> within E (tk_cur t) (m_expr m) ->
  exists m', nth_error (ss_hall (co_st c)) (m_complexity m) = Some (Some m') /\ m_complexity m' = m_complexity m /\ fltb F (m_cost m) (m_cost m') = false.
Proof.
  intros T W S0 full bl B th st0 es1 c1 t r c2 es2 c m H Hi nw E F O Hnum K1 Ht Hx Hap Hst K2 Hseen Hw.
  destruct (sound_inv S0 full bl B H) as (V1 & V2 & _). destruct (inv_numeric S0 full bl B H) as (N1 & N2 & _).
  set (P0 := sound E (ds_n_features full) B bl) in *. set (Pn := fun m => sound E (ds_n_features full) B bl m /\ numeric F (m_loss m)) in *.
  assert (Hv0 : co_inv S0 full P0 P0 P0 (within E (sel_maxsize (eo_sel E))) (parallel_start S0 st0)) by (split; [apply V1; auto|intros ? []]).
  assert (Hn0 : co_inv S0 full Pn Pn Pn (within E (sel_maxsize (eo_sel E))) (parallel_start S0 st0)) by (split; [apply N1; auto|intros ? []]).
  destruct (V2 _ _ _ _ Hv0 K1) as [_ Hv1]. destruct (N2 _ _ _ _ Hn0 K1) as [_ Hn1]. destruct (Hv1 t Ht) as [Hpi Hcur]. destruct (Hn1 t Ht) as [Hpn _].
  destruct (csteps_receives S0 full bl nw _ _ _ K1) as (rs1 & R1). destruct (csteps_receives S0 full bl nw _ _ _ K2) as (rs2 & R2).
  assert (R : receives S0 full bl nw (parallel_start S0 st0) (rs1 ++ r :: rs2) c).
  { eapply receives_app; [exact R1|]. eapply RcDeliver; [exists t; split; [exact Ht|split; [exact Hx|split; [exact Hap|exact Hst]]]|exact R2]. }
  apply (kept S0 full bl B t r (first_offers (sel_maxsize (eo_sel E)) st0 ++ flat_map offers (rs1 ++ r :: rs2)) (ss_hall (co_st c)) m); auto.
  - apply Forall_app. split; [apply (first_sound S0 full bl B H); auto|]. eapply (received_sound S0 full bl B H); eauto.
  - clear - Hi R. subst E. rewrite offer_all_app. rewrite (init_hall S0 full bl st0 Hi). cbn [bind]. apply (receives_hall S0 full bl nw _ _ _ R).
  - apply all_offered.
Qed.

(** The same for the stepwise engine: for each task of the steps made so far. *)
Theorem C67_engine_nothing_lost : forall (T W : Type) (S0 : search_cfg T W) full B en0 ns en ks rs1 st1 g i s1 t r st2 rs2 m,
  search_ok S0 full B -> engine_new S0 full = Ok en0 ->
  let bl := en_bl en0 in let E := sc_E S0 in let F := ec_F (eo_C E) in
  OrderLaws F -> (forall loss k, numeric F loss -> k <= sel_maxsize (eo_sel E) -> num F (cost_of E loss k bl)) ->
  steps S0 en0 ns = Ok (en, ks) ->
  turns S0 full bl (en_st en0) rs1 st1 ->
  dispatch S0 (with_order st1 g) i = Ok (Some (s1, t)) -> execute_task S0 full bl t = Ok r -> apply_task_result S0 s1 r = Ok st2 ->
  turns S0 full bl st2 rs2 (en_st en) ->
  seen_by S0 full bl t m -> within E (tk_cur t) (m_expr m) ->
  exists m', nth_error (ss_hall (en_st en)) (m_complexity m) = Some (Some m') /\ m_complexity m' = m_complexity m /\ fltb F (m_cost m) (m_cost m') = false.
Proof.
  intros T W S0 full B en0 ns en ks rs1 st1 g i s1 t r st2 rs2 m H Hen bl E F O Hnum _ R1 Hd Hx Hap R2 Hseen Hw.
  assert (Hi : init_search S0 full bl = Ok (en_st en0)).
  { subst bl. unfold engine_new in Hen. apply bind_ok in Hen as (bl' & _ & Hen). apply bind_ok in Hen as (st & Hi & Hen). injection Hen as <-. exact Hi. }
  clearbody bl. destruct (sound_inv S0 full bl B H) as (V1 & _ & V3). destruct (inv_numeric S0 full bl B H) as (N1 & _ & N3).
  set (P0 := sound E (ds_n_features full) B bl) in *. set (Pn := fun m => sound E (ds_n_features full) B bl m /\ numeric F (m_loss m)) in *.
  destruct (turns_advances S0 full bl _ _ _ R1) as (l & Ha).
  pose proof (V3 _ _ _ (V1 _ Hi) Ha) as Iv. pose proof (N3 _ _ _ (N1 _ Hi) Ha) as In_.
  pose proof (dispatch_some _ _ _ _ _ Hd) as (D1 & _ & _ & _ & _ & _ & _ & _ & _ & _ & _ & D9). pose proof (nth_error_In _ _ D1) as Hin. cbn [with_order ss_pops] in Hin.
  assert (R : turns S0 full bl (en_st en0) (rs1 ++ r :: rs2) (en_st en)).
  { clear - R1 Hd Hx Hap R2. revert Hd. induction R1 as [st g'|st r' st' rs st'' Ht _ IH]; intros Hd.
    - cbn [app]. econstructor; [exists g, i, s1, t; split; [exact Hd|split; [exact Hx|exact Hap]]|exact R2].
    - cbn [app]. econstructor; [exact Ht|]. apply IH; auto. }
  apply (kept S0 full bl B t r (first_offers (sel_maxsize (eo_sel E)) (en_st en0) ++ flat_map offers (rs1 ++ r :: rs2)) (ss_hall (en_st en)) m); auto.
  - destruct Iv as [I1 _ _ _]. apply I1; auto.
  - destruct In_ as [I1 _ _ _]. apply I1; auto.
  - eapply sk_limit; eauto.
  - apply Forall_app. split; [apply (first_sound S0 full bl B H); auto|]. eapply (turns_sound S0 full bl B H); [|exact R]. apply V1; auto.
  - clear - Hi R. subst E. rewrite offer_all_app. rewrite (init_hall S0 full bl _ Hi). cbn [bind]. apply (turns_hall S0 full bl _ _ _ R).
  - apply all_offered.
Qed.

(** *** Cases *)

(** A search whose hall of fame ends with members that no population holds any more (at complexities 3 and 9). *)
Lemma missed_costs : forall loss k, numeric (ec_F (eo_C (sc_E missed_search))) loss -> k <= sel_maxsize (eo_sel (sc_E missed_search)) ->
  num (ec_F (eo_C (sc_E missed_search))) (cost_of (sc_E missed_search) loss k None).
Proof.
  intros loss k Hl _. unfold cost_of, loss_to_cost, num, numeric in *. destruct loss as [q|[]|]; [|reflexivity|reflexivity|destruct Hl; discriminate].
  cbn. apply Qeq_bool_refl.
Qed.
Example C67_case : OrderLaws (ec_F (eo_C (sc_E missed_search))) /\ search_ok missed_search demo_data 9
  /\ (forall loss k, numeric (ec_F (eo_C (sc_E missed_search))) loss -> k <= sel_maxsize (eo_sel (sc_E missed_search)) ->
       num (ec_F (eo_C (sc_E missed_search))) (cost_of (sc_E missed_search) loss k None))
  /\ exists st0 es c, init_search missed_search demo_data None = Ok st0
  /\ csteps missed_search demo_data None (n_workers missed_search 8) (parallel_start missed_search st0) es c
  /\ map (option_map m_id) (ss_hall (co_st c)) = [None; Some 3; None; Some 10; None; Some 107; None; Some 8; None; Some 7]
  /\ map (option_map (fun p => map m_complexity (ps_pop p))) (ss_pops (co_st c)) = [Some [7; 7]; Some [1; 5]].
Proof.
  split; [exact xq_order_laws|]. split; [exact missed_ok|]. split; [exact missed_costs|].
  assert (E : after (fun c => (map (option_map m_id) (ss_hall (co_st c)), map (option_map (fun p => map m_complexity (ps_pop p))) (ss_pops (co_st c)))) missed_search demo_data out_of_order
    = Some ([None; Some 3; None; Some 10; None; Some 107; None; Some 8; None; Some 7], [Some [7; 7]; Some [1; 5]])) by (vm_compute; reflexivity).
  apply after_inv in E as (st0 & es & c & Hi & Hc & E). injection E as E1 E2. exists st0, es, c. auto.
Qed.

(** The engine on the same search: every task of its steps meets the premises. *)
Definition ran (S0 : search_cfg xq xq) (d : dataset xq) (ns : list nat) : res (list nat) := let! en0 := engine_new S0 d in let! (en, ks) := steps S0 en0 ns in Ok ks.
Example C67_engine_case : exists en0 en ks, engine_new missed_search demo_data = Ok en0 /\ steps missed_search en0 [2; 9] = Ok (en, ks) /\ 1 < PropSearch.sum ks
  /\ exists rs1 st1 g i s1 t r st2 rs2, turns missed_search demo_data (en_bl en0) (en_st en0) rs1 st1 /\ List.length rs1 = 1
  /\ dispatch missed_search (with_order st1 g) i = Ok (Some (s1, t)) /\ execute_task missed_search demo_data (en_bl en0) t = Ok r
  /\ apply_task_result missed_search s1 r = Ok st2 /\ turns missed_search demo_data (en_bl en0) st2 rs2 (en_st en).
Proof.
  assert (E : exists ks, ran missed_search demo_data [2; 9] = Ok ks /\ 1 < PropSearch.sum ks).
  { assert (E : match ran missed_search demo_data [2; 9] with Ok ks => Some (1 <? PropSearch.sum ks) | _ => None end = Some true) by (vm_compute; reflexivity).
    destruct (ran missed_search demo_data [2; 9]) as [ks| |]; try discriminate E. exists ks. split; auto. injection E as E. apply Nat.ltb_lt, E. }
  destruct E as (ks & E & Hks). unfold ran in E. apply bind_ok in E as (en0 & Hn & E). apply bind_ok in E as ([en ks'] & Hs & E). injection E as ->.
  exists en0, en, ks. split; [exact Hn|]. split; [exact Hs|]. split; [exact Hks|].
  destruct (C67_engine _ _ missed_search demo_data 9 en0 [2; 9] en ks missed_ok Hn xq_order_laws Hs) as (rs & Hr & Hl & _). rewrite <- Hl in Hks. clear Hl Hs Hn.
  generalize dependent (en_st en). generalize dependent (en_bl en0). generalize (en_st en0). intros st0 bl st Hr.
  destruct Hr as [|st0 r0 st1 rs st Ht Hr]; [cbn in Hks; lia|]. destruct Hr as [|st1 r st2 rs st Ht2 Hr]; [cbn in Hks; lia|].
  destruct Ht2 as (g & i & s1 & t & D & X & A). exists [r0], (with_order st1 (ss_order st1)), g, i, s1, t, r, st2, rs.
  split; [econstructor; [exact Ht|constructor]|]. split; [reflexivity|]. split; [exact D|]. auto.
Qed.

Print Assumptions C67_parallel.
Print Assumptions C67_engine.
Print Assumptions C67_nothing_lost.
Print Assumptions C67_engine_nothing_lost.
