(** Properties C24-C27: hall of fame, Pareto front, replacement by age, migration. *)
From Verif Require Import Base BaseLemmas Node Tree NodeProofs SpanProofs Compile Registry Rng Complexity ComplexitySpec ComplexityProofs PropComplexity Num Instances Member SortProofs.
From Coq Require Import Sorted.

Lemma is_less_cmp {T} (F : FloatOps T) a b : is_less (cmp_or_greater F a b) = fltb F a b.
Proof. unfold cmp_or_greater, partial_cmp. destruct (fltb F a b), (feqb F a b), (fltb F b a); reflexivity. Qed.

(** ** C24 *)
(** The setting: every considered member carries a valid expression. *)
Definition valid_member {T} (D nf : nat) (known : nat -> nat -> bool) (m : member T) : Prop := expr_ok D nf known (m_expr m).

(** The member's expression satisfies all constraints for the size limit in force. *)
Definition feasible_member {T} (o : size_opts) (curmaxsize : nat) (m : member T) : Prop :=
  exists t, represents (m_expr m) t /\ feasible o curmaxsize t.

(** All members offered to a hall of fame, in order, with the size limit at that time. *)
Definition offer_all {T} (F : FloatOps T) (umax D : nat) (o : size_opts) (stale : list nat) (h : hof T)
    (hist : list (member T * nat)) : res (hof T) :=
  foldM (fun h p => consider F umax D o stale h (fst p) (snd p)) hist h.

(** [p] competes for slot [c]. *)
Definition competes {T} (o : size_opts) (c : nat) (p : member T * nat) : Prop :=
  m_complexity (fst p) = c /\ feasible_member o (snd p) (fst p).

Section C24.
Context {T : Type} (F : FloatOps T) (L : OrderLaws F) (umax D nf : nat) (known : nat -> nat -> bool) (o : size_opts)
  (W : widths umax D o).

Lemma check_member m cm stale : valid_member D nf known m -> cm < umax ->
  exists b, check_constraints umax D stale o (m_expr m) cm = Ok b /\ (b = true <-> @feasible_member T o cm m).
Proof.
  intros (t & Hr & Hok) Hcm. destruct (C23_check_constraints_exact T umax D nf known stale o cm (m_expr m) t W Hcm Hr Hok) as (b & E & Hb).
  exists b. split; auto. rewrite Hb. split.
  - intros H. exists t. auto.
  - intros (t' & Hr' & H). unfold represents in *. assert (t = t') as -> by (apply flatten_inj; congruence). auto.
Qed.

(** What one slot holds after a history. *)
Definition slot_spec (c : nat) (hist : list (member T * nat)) (s : option (member T)) : Prop :=
  match s with
  | None => forall p, In p hist -> ~ competes o c p
  | Some m =>
      exists before cm after, hist = before ++ (m, cm) :: after
        /\ competes o c (m, cm)
        /\ (forall p, In p hist -> competes o c p -> fltb F (m_cost (fst p)) (m_cost m) = false)
        /\ (forall p, In p before -> competes o c p -> num F (m_cost (fst p)) -> fltb F (m_cost m) (m_cost (fst p)) = true)
  end.

Definition hof_inv (len : nat) (hist : list (member T * nat)) (h : hof T) : Prop :=
  List.length h = len /\ nth_error h 0 = Some None /\
  forall c, 1 <= c < len -> exists s, nth_error h c = Some s /\ slot_spec c hist s.

Lemma slot_spec_skip c hist s p : slot_spec c hist s -> ~ competes o c p -> slot_spec c (hist ++ [p]) s.
Proof.
  destruct s as [m|]; cbn.
  - intros (b & cm & a & -> & H1 & H2 & H3) Hp. exists b, cm, (a ++ [p]). rewrite <- app_assoc. cbn. split; auto. split; auto. split; auto.
    intros q Hq Hc. apply in_app_or in Hq as [Hq|[<-|Hq]].
    + apply H2; auto. apply in_or_app. auto.
    + cbn. apply (ol_irr F L).
    + apply in_app_or in Hq as [Hq|[<-|[]]]; [|contradiction]. apply H2; auto. apply in_or_app; right; right; auto.
  - intros H Hp q Hq. apply in_app_or in Hq as [Hq|[<-|[]]]; auto.
Qed.

Lemma slot_spec_keep c hist m p : slot_spec c hist (Some m) -> fltb F (m_cost (fst p)) (m_cost m) = false -> slot_spec c (hist ++ [p]) (Some m).
Proof.
  intros (b & cm & a & -> & H1 & H2 & H3) Hp. exists b, cm, (a ++ [p]). rewrite <- app_assoc. cbn [app]. split; auto. split; auto. split; auto.
  intros q Hq Hc. replace (b ++ (m, cm) :: a ++ [p]) with ((b ++ (m, cm) :: a) ++ [p]) in Hq by (rewrite <- app_assoc; reflexivity).
  apply in_app_or in Hq as [Hq|[<-|[]]]; auto.
Qed.

Lemma not_lt_le x y : num F x -> num F y -> fltb F x y = false -> fltb F y x = true \/ feqb F x y = true.
Proof. intros Hx Hy H. destruct (ol_total F L x y Hx Hy) as [E|[E|E]]; auto. congruence. Qed.

Lemma slot_spec_replace c hist m p : slot_spec c hist (Some m) -> competes o c p -> fltb F (m_cost (fst p)) (m_cost m) = true ->
  slot_spec c (hist ++ [p]) (Some (fst p)).
Proof.
  intros (b & cm & a & -> & H1 & H2 & H3) Hp Hlt. exists (b ++ (m, cm) :: a), (snd p), []. destruct p as [m' cm']. cbn [fst snd] in *.
  split; [reflexivity|]. split; auto. split.
  - intros q Hq Hc. apply in_app_or in Hq as [Hq|[<-|[]]]; [|cbn; apply (ol_irr F L)].
    apply not_true_is_false. intros Hcon. pose proof (ol_trans F L _ _ _ Hcon Hlt) as H. rewrite (H2 q Hq Hc) in H. discriminate.
  - intros q Hq Hc Hn. specialize (H2 q Hq Hc).
    destruct (ol_num F L _ _ Hlt) as [_ Hm].
    destruct (not_lt_le _ _ Hn Hm H2) as [H|H].
    + eapply (ol_trans F L); eauto.
    + rewrite (ol_eq_r F L _ _ _ H). auto.
Qed.

Lemma nth_error_upd_cases {A} (l : list A) i j x y : nth_error (upd l i x) j = Some y -> (i = j /\ y = x) \/ (i <> j /\ nth_error l j = Some y).
Proof.
  destruct (Nat.eq_dec i j) as [->|Hne].
  - intros H. left. split; auto. destruct (Nat.lt_ge_cases j (List.length l)) as [Hl|Hl].
    + rewrite nth_error_upd_same in H by auto. congruence.
    + rewrite (proj2 (nth_error_None _ _)) in H by (rewrite upd_length; auto). discriminate.
  - rewrite nth_error_upd_other by auto. auto.
Qed.

Lemma consider_inv len hist h stale p : hof_inv len hist h -> valid_member D nf known (fst p) -> snd p < umax ->
  exists h', consider F umax D o stale h (fst p) (snd p) = Ok h' /\ hof_inv len (hist ++ [p]) h'
    /\ forall c m, nth_error h c = Some (Some m) -> exists m', nth_error h' c = Some (Some m') /\
         (m' = m \/ m' = fst p /\ fltb F (m_cost m') (m_cost m) = true).
Proof.
  intros (Hlen & H0 & Hs) Hv Hcm. unfold consider. destruct (check_member (fst p) (snd p) stale Hv Hcm) as (ok & Eok & Hok).
  rewrite Eok. cbn [bind].
  assert (Hskip : (forall c, 1 <= c < len -> ~ competes o c p) -> exists h', Ok h = Ok h' /\ hof_inv len (hist ++ [p]) h'
    /\ forall c m, nth_error h c = Some (Some m) -> exists m', nth_error h' c = Some (Some m') /\
         (m' = m \/ m' = fst p /\ fltb F (m_cost m') (m_cost m) = true)).
  { intros Hn. exists h. split; auto. split; [|eauto]. split; auto. split; auto. intros c Hc. destruct (Hs c Hc) as (s & E & Hsp).
    exists s. split; auto. apply slot_spec_skip; auto. }
  destruct ok; cbn [negb].
  2:{ apply Hskip. intros c Hc [_ Hf]. apply Hok in Hf. discriminate. }
  destruct (Nat.eqb_spec (m_complexity (fst p)) 0).
  { apply Hskip. intros c Hc [Hcc _]. lia. }
  destruct (Nat.leb_spec (List.length h) (m_complexity (fst p))).
  { apply Hskip. intros c Hc [Hcc _]. lia. }
  set (c0 := m_complexity (fst p)) in *.
  destruct (Hs c0) as (s0 & E0 & Hs0); [lia|]. unfold index. rewrite E0. cbn [expect bind].
  assert (Hcomp : competes o c0 p) by (split; [reflexivity|apply Hok; auto]).
  assert (Hset : slot_spec c0 (hist ++ [p]) (Some (fst p)) ->
      (forall m, s0 = Some m -> fltb F (m_cost (fst p)) (m_cost m) = true) ->
      exists h', set_index h c0 (Some (fst p)) = Ok h' /\ hof_inv len (hist ++ [p]) h'
    /\ forall c m, nth_error h c = Some (Some m) -> exists m', nth_error h' c = Some (Some m') /\
         (m' = m \/ m' = fst p /\ fltb F (m_cost m') (m_cost m) = true)).
  { intros Hnew Hlt. unfold set_index. destruct (Nat.ltb_spec c0 (List.length h)); [|lia]. eexists. split; [reflexivity|]. split.
    - split; [rewrite upd_length; auto|]. split; [rewrite nth_error_upd_other; auto|]. intros c Hc.
      destruct (Nat.eq_dec c0 c) as [<-|Hne].
      + exists (Some (fst p)). rewrite nth_error_upd_same by lia. auto.
      + destruct (Hs c Hc) as (s & E & Hsp). exists s. rewrite nth_error_upd_other by auto. split; auto.
        apply slot_spec_skip; auto. intros [Hcc _]. lia.
    - intros c m Hm. destruct (Nat.eq_dec c0 c) as [<-|Hne].
      + rewrite nth_error_upd_same by lia. exists (fst p). split; auto. right. split; auto. apply Hlt. congruence.
      + rewrite nth_error_upd_other by auto. eauto. }
  destruct s0 as [best|].
  - rewrite is_less_cmp. destruct (fltb F (m_cost (fst p)) (m_cost best)) eqn:Elt.
    + apply Hset; [|intros m [= <-]; auto]. eapply slot_spec_replace; eauto.
    + exists h. split; auto. split; [|eauto]. split; auto. split; auto. intros c Hc. destruct (Nat.eq_dec c0 c) as [<-|Hne].
      * exists (Some best). split; auto. apply slot_spec_keep; auto.
      * destruct (Hs c Hc) as (s & E & Hsp). exists s. split; auto. apply slot_spec_skip; auto. intros [Hcc _]. lia.
  - apply Hset; [|discriminate]. exists hist, (snd p), []. destruct p as [m' cm']. cbn [fst snd] in *. split; auto. split; auto. split.
    + intros q Hq Hc. apply in_app_or in Hq as [Hq|[<-|[]]]; [exfalso; eapply Hs0; eauto|cbn; apply (ol_irr F L)].
    + intros q Hq Hc. exfalso. eapply Hs0; eauto.
Qed.

Lemma offer_all_inv len stale hist : forall hist0 h, hof_inv len hist0 h ->
  Forall (fun p => valid_member D nf known (fst p) /\ snd p < umax) hist ->
  exists h', offer_all F umax D o stale h hist = Ok h' /\ hof_inv len (hist0 ++ hist) h'
    /\ forall c m, nth_error h c = Some (Some m) -> exists m', nth_error h' c = Some (Some m') /\
         (m' = m \/ fltb F (m_cost m') (m_cost m) = true).
Proof.
  induction hist as [|p hist IH]; intros hist0 h Hi Hf.
  - exists h. rewrite app_nil_r. split; auto. split; auto. eauto.
  - apply Forall_cons_iff in Hf as [[Hv Hc] Hf]. destruct (consider_inv len hist0 h stale p Hi Hv Hc) as (h1 & E & Hi1 & Hm1).
    unfold offer_all. cbn [foldM]. rewrite E. cbn [bind].
    destruct (IH (hist0 ++ [p]) h1 Hi1 Hf) as (h' & E' & Hi' & Hm'). rewrite <- app_assoc in Hi'. exists h'. split; auto. split; auto.
    intros c m H. destruct (Hm1 c m H) as (m1 & H1 & Hor). destruct (Hm' c m1 H1) as (m2 & H2 & Hor2). exists m2. split; auto.
    destruct Hor as [->|[_ Hlt]]; auto. right. destruct Hor2 as [->|Hlt2]; auto. eapply (ol_trans F L); eauto.
Qed.
End C24.

(** C24: after any history of offers to a new hall of fame, the slot of each complexity [c] is empty exactly when no
    feasible member of that complexity was offered; otherwise it holds an offered feasible member of complexity [c],
    no feasible member of that complexity had a lower cost, and all such members offered before it (with a cost that is
    not NaN) had a strictly higher cost. The history may use any sequence of size limits. *)
Theorem C24_hall_of_fame :
  forall (T : Type) (F : FloatOps T) (umax D nf : nat) (known : nat -> nat -> bool) (o : size_opts) (stale : list nat)
    (max_complexity : nat) (hist : list (member T * nat)),
  OrderLaws F -> widths umax D o ->
  Forall (fun p => valid_member D nf known (fst p) /\ snd p < umax) hist ->
  exists h, offer_all F umax D o stale (hof_new max_complexity) hist = Ok h
    /\ List.length h = max_complexity + 1
    /\ nth_error h 0 = Some None
    /\ forall c, 1 <= c <= max_complexity -> exists slot, nth_error h c = Some slot /\
         match slot with
         | None => forall p, In p hist -> ~ competes o c p
         | Some m =>
             exists before cm after, hist = before ++ (m, cm) :: after
               /\ competes o c (m, cm)
               /\ (forall p, In p hist -> competes o c p -> fltb F (m_cost (fst p)) (m_cost m) = false)
               /\ (forall p, In p before -> competes o c p -> num F (m_cost (fst p)) ->
                     fltb F (m_cost m) (m_cost (fst p)) = true)
         end.
Proof.
  intros T F umax D nf known o stale mc hist L W Hf.
  destruct (offer_all_inv F L umax D nf known o W (mc + 1) stale hist [] (hof_new mc)) as (h & E & (H1 & H2 & H3) & _); auto.
  - unfold hof_new, fill. split; [apply repeat_length|]. split; [apply repeat_nth_error; lia|].
    intros c Hc. exists None. split; [apply repeat_nth_error; lia|]. intros p [].
  - exists h. split; auto. split; auto. split; auto. intros c Hc. apply H3. lia.
Qed.

(** Slots never become empty and never get worse, whatever is offered next. *)
Theorem C24_slots_only_improve :
  forall (T : Type) (F : FloatOps T) (umax D nf : nat) (known : nat -> nat -> bool) (o : size_opts) (stale : list nat)
    (max_complexity : nat) (hist later : list (member T * nat)) (h : hof T),
  OrderLaws F -> widths umax D o ->
  Forall (fun p => valid_member D nf known (fst p) /\ snd p < umax) (hist ++ later) ->
  offer_all F umax D o stale (hof_new max_complexity) hist = Ok h ->
  exists h', offer_all F umax D o stale h later = Ok h'
    /\ forall c m, nth_error h c = Some (Some m) ->
         exists m', nth_error h' c = Some (Some m') /\ (m' = m \/ fltb F (m_cost m') (m_cost m) = true).
Proof.
  intros T F umax D nf known o stale mc hist later h L W Hf E. apply Forall_app in Hf as [Hf1 Hf2].
  destruct (offer_all_inv F L umax D nf known o W (mc + 1) stale hist [] (hof_new mc)) as (h0 & E0 & Hi & _); auto.
  - unfold hof_new, fill. split; [apply repeat_length|]. split; [apply repeat_nth_error; lia|].
    intros c Hc. exists None. split; [apply repeat_nth_error; lia|]. intros p [].
  - rewrite E in E0. injection E0 as <-.
    destruct (offer_all_inv F L umax D nf known o W (mc + 1) stale later _ h Hi Hf2) as (h' & E' & _ & Hm). eauto.
Qed.

(** [update_from_members] is offering the members in order. *)
Lemma update_from_members_offers {T} (F : FloatOps T) umax D o stale (h : hof T) ms cm :
  update_from_members F umax D o stale h ms cm = offer_all F umax D o stale h (map (fun m => (m, cm)) ms).
Proof.
  unfold update_from_members, offer_all. revert h. induction ms as [|m ms IH]; intros h; cbn; auto.
  destruct (consider F umax D o stale h m cm); cbn; auto.
Qed.

(** ** C25 *)
(** [simpler h m m']: [m] is stored in a slot of lower complexity than [m']. *)
Lemma hof_members_app {T} (h1 h2 : hof T) : hof_members (h1 ++ h2) = hof_members h1 ++ hof_members h2.
Proof. induction h1 as [|[m|] h1 IH]; cbn; auto. f_equal; auto. Qed.

Lemma pareto_loop_spec {T} (F : FloatOps T) (L : OrderLaws F) ms : forall pre b,
  (b = finf F \/ exists m0, In m0 pre /\ m_loss m0 = b /\ num F b) ->
  (forall m', In m' pre -> fltb F (m_loss m') b = false) ->
  forall front, pareto_loop F ms b = front ->
  (exists sel, front = map snd (filter fst (combine sel ms)) /\ List.length sel = List.length ms /\
     forall i s m, nth_error sel i = Some s -> nth_error ms i = Some m ->
       (s = true <-> fltb F (m_loss m) (finf F) = true /\ forall m', In m' (pre ++ firstn i ms) -> fleb F (m_loss m') (m_loss m) = false))
  /\ StronglySorted (fun a b => fltb F (m_loss b) (m_loss a) = true) front
  /\ Forall (fun m => fltb F (m_loss m) b = true) front.
Proof.
  induction ms as [|m ms IH]; intros pre b Hb Hpre front Hfront; cbn in Hfront.
  - subst. split; [|split; constructor]. exists []. split; auto. split; auto. intros [|i]; discriminate.
  - assert (Hiff : fltb F (m_loss m) b = true <-> fltb F (m_loss m) (finf F) = true /\ forall m', In m' pre -> fleb F (m_loss m') (m_loss m) = false).
    { split.
      - intros H. split.
        + destruct Hb as [->|(m0 & _ & _ & Hn)]; auto.
          destruct (ol_total F L b (finf F) Hn (ol_inf_num F L)) as [E|[E|E]].
          * eapply (ol_trans F L); eauto.
          * rewrite <- (ol_eq_r F L _ _ _ E). auto.
          * rewrite (ol_inf_top F L) in E. discriminate.
        + intros m' Hm'. apply not_true_is_false. unfold fleb. intros Hc. apply orb_true_iff in Hc.
          assert (fltb F (m_loss m') b = true).
          { destruct Hc as [Hc|Hc]; [eapply (ol_trans F L); eauto|]. rewrite (ol_eq_l F L _ _ _ Hc). auto. }
          rewrite Hpre in H0; auto. discriminate.
      - intros [Hi Hno]. destruct Hb as [->|(m0 & Hin & E & Hn)]; auto.
        specialize (Hno m0 Hin). unfold fleb in Hno. apply orb_false_iff in Hno as [N1 N2]. rewrite E in *.
        destruct (ol_num F L _ _ Hi) as [Hm _].
        destruct (ol_total F L b (m_loss m) Hn Hm) as [X|[X|X]]; congruence. }
    assert (Hnext : forall (s : bool) b' rest,
       (s = true <-> fltb F (m_loss m) b = true) ->
       front = (if s then [m] else []) ++ rest -> pareto_loop F ms b' = rest ->
       (b' = finf F \/ exists m0, In m0 (pre ++ [m]) /\ m_loss m0 = b' /\ num F b') ->
       (forall m', In m' (pre ++ [m]) -> fltb F (m_loss m') b' = false) ->
       (exists sel, front = map snd (filter fst (combine sel (m :: ms))) /\ List.length sel = List.length (m :: ms) /\
         forall i s m1, nth_error sel i = Some s -> nth_error (m :: ms) i = Some m1 ->
         (s = true <-> fltb F (m_loss m1) (finf F) = true /\ forall m', In m' (pre ++ firstn i (m :: ms)) -> fleb F (m_loss m') (m_loss m1) = false))
       /\ StronglySorted (fun a b => fltb F (m_loss b) (m_loss a) = true) rest
       /\ Forall (fun m => fltb F (m_loss m) b' = true) rest).
    { intros s b' rest Hs Hf Hr Hb' Hpre'. destruct (IH (pre ++ [m]) b' Hb' Hpre' rest Hr) as ((sel & E & Hl & Hsel) & Hsort & Hall).
      split; [|split; auto]. exists (s :: sel). split; [|split].
      - rewrite Hf, E. destruct s; reflexivity.
      - cbn. auto.
      - intros [|i] s1 m1; cbn [nth_error firstn].
        + intros [= <-] [= <-]. rewrite app_nil_r, Hs. exact Hiff.
        + intros H1 H2. rewrite (Hsel i s1 m1 H1 H2). rewrite <- app_assoc. reflexivity. }
    destruct (fltb F (m_loss m) b) eqn:E.
    + destruct (Hnext true (m_loss m) (pareto_loop F ms (m_loss m))) as (A1 & A2 & A3); auto.
      * split; auto.
      * right. exists m. split; [apply in_or_app; right; left; auto|]. split; auto. destruct (ol_num F L _ _ E); auto.
      * intros m' Hm'. apply in_app_or in Hm' as [Hm'|[<-|[]]]; [|apply (ol_irr F L)].
        apply not_true_is_false. intros Hc. pose proof (ol_trans F L _ _ _ Hc E) as Hx. rewrite Hpre in Hx; auto. discriminate.
      * split; auto. subst front. split.
        -- constructor; auto.
        -- constructor; auto. rewrite Forall_forall in *. intros x Hx. eapply (ol_trans F L); eauto.
    + destruct (Hnext false b (pareto_loop F ms b)) as (A1 & A2 & A3); auto.
      * split; congruence.
      * destruct Hb as [->|(m0 & Hin & He)]; auto. right. exists m0. split; auto. apply in_or_app; auto.
      * intros m' Hm'. apply in_app_or in Hm' as [Hm'|[<-|[]]]; auto.
      * subst front. auto.
Qed.

(** Position of slots: [m] is stored at complexity [c]. *)
Definition stored {T} (h : hof T) (c : nat) (m : member T) : Prop := nth_error h c = Some (Some m).

Lemma hof_members_nth {T} (h : hof T) i m : nth_error (hof_members h) i = Some m ->
  exists c, stored h c m /\ i = List.length (hof_members (firstn c h)).
Proof.
  unfold stored. revert i. induction h as [|[x|] h IH]; intros i; cbn.
  - destruct i; discriminate.
  - destruct i as [|i]; cbn.
    + intros [= <-]. exists 0. auto.
    + intros H. destruct (IH i H) as (c & H1 & H2). exists (S c). cbn. split; auto.
  - intros H. destruct (IH i H) as (c & H1 & H2). exists (S c). cbn. auto.
Qed.

Lemma stored_nth {T} (h : hof T) c m : stored h c m -> nth_error (hof_members h) (List.length (hof_members (firstn c h))) = Some m.
Proof.
  unfold stored. revert c. induction h as [|[x|] h IH]; intros [|c]; cbn; try discriminate.
  - intros [= ->]. auto.
  - intros H. apply IH in H. exact H.
  - apply IH.
Qed.

Lemma firstn_members {T} (h : hof T) c : hof_members (firstn c h) = firstn (List.length (hof_members (firstn c h))) (hof_members h).
Proof.
  revert c. induction h as [|[x|] h IH]; intros [|c]; cbn; auto. f_equal. apply IH.
Qed.

Lemma in_hof_members {T} (h : hof T) m : In m (hof_members h) <-> exists c, stored h c m.
Proof.
  split.
  - intros H. apply In_nth_error in H as [i Hi]. apply hof_members_nth in Hi as (c & Hc & _). eauto.
  - intros (c & Hc). apply stored_nth in Hc. eapply nth_error_In; eauto.
Qed.

Lemma stored_firstn {T} (h : hof T) c c' m : stored (firstn c h) c' m <-> c' < c /\ stored h c' m.
Proof.
  unfold stored. destruct (Nat.lt_ge_cases c' c).
  - rewrite nth_error_firstn by auto. intuition.
  - split; [|lia]. intros H1. exfalso. assert (c' < List.length (firstn c h)) by (apply nth_error_Some; congruence).
    rewrite firstn_length in H0. lia.
Qed.

(** C25: the front lists stored members in increasing order of complexity with strictly decreasing losses, and a stored
    member belongs to it exactly when its loss is below infinity and no member stored at a smaller complexity has a
    loss at most as large. NaN and infinite losses are covered. *)
Theorem C25_pareto_front :
  forall (T : Type) (F : FloatOps T) (h : hof T), OrderLaws F ->
  exists picks : list (nat * member T),
    pareto_front F h = map snd picks
    /\ StronglySorted (fun a b => fst a < fst b) picks
    /\ StronglySorted (fun a b => fltb F (m_loss b) (m_loss a) = true) (pareto_front F h)
    /\ forall c m, In (c, m) picks <->
         stored h c m /\ fltb F (m_loss m) (finf F) = true
         /\ forall c' m', c' < c -> stored h c' m' -> fleb F (m_loss m') (m_loss m) = false.
Proof.
  intros T F h L. destruct (pareto_loop_spec F L (hof_members h) [] (finf F) (or_introl eq_refl) ltac:(intros ? []) _ eq_refl)
    as ((sel & E & Hlen & Hsel) & Hsort & _).
  (* the slots holding a member, with their complexity *)
  set (slots := fix go (h : hof T) (c : nat) : list (nat * member T) :=
         match h with [] => [] | None :: h' => go h' (S c) | Some m :: h' => (c, m) :: go h' (S c) end).
  assert (Hslots_snd : forall h c, map snd (slots h c) = hof_members h).
  { induction h0 as [|[m|] h0 IH]; intros c; cbn; auto. f_equal. apply IH. }
  assert (Hslots_in : forall h c0 c m, In (c, m) (slots h c0) <-> exists k, c = c0 + k /\ stored h k m).
  { unfold stored. induction h0 as [|[m0|] h0 IH]; intros c0 c m; cbn.
    - split; [intros []|]. intros ([|k] & _ & H); discriminate.
    - rewrite IH. split.
      + intros [H|(k & -> & H)]; [injection H as <- <-; exists 0; split; [lia|reflexivity]|exists (S k); split; [lia|exact H]].
      + intros ([|k] & -> & H); cbn in H; [injection H as ->; left; f_equal; lia|right; exists k; split; [lia|auto]].
    - rewrite IH. split.
      + intros (k & -> & H). exists (S k). split; [lia|exact H].
      + intros ([|k] & -> & H); cbn in H; [discriminate|]. exists k. split; [lia|auto]. }
  assert (Hslots_sorted : forall h c0, StronglySorted (fun a b : nat * member T => fst a < fst b) (slots h c0)
           /\ Forall (fun a => c0 <= fst a) (slots h c0)).
  { induction h0 as [|[m0|] h0 IH]; intros c0; cbn; [split; constructor| |].
    - destruct (IH (S c0)) as [H1 H2]. split.
      + constructor; auto.
      + constructor; [cbn; lia|]. eapply Forall_impl; [|exact H2]; cbn; intros; lia.
    - destruct (IH (S c0)) as [H1 H2]. split; auto. eapply Forall_impl; [|exact H2]. cbn. intros; lia. }
  exists (map snd (filter fst (combine sel (slots h 0)))).
  split; [|split; [|split]].
  - unfold pareto_front. rewrite E. rewrite <- (Hslots_snd h 0). clear. revert sel. generalize (slots h 0). clear.
    induction l as [|a l IH]; intros [|s sel]; cbn; auto. destruct s; cbn; [f_equal|]; apply IH.
  - destruct (Hslots_sorted h 0) as [Hs _]. revert Hs. clear. revert sel. generalize (slots h 0). clear.
    induction l as [|a l IH]; intros [|s sel] Hs; cbn; try constructor. inversion Hs as [|? ? Hs' Hf]; subst.
    destruct s; cbn; auto. constructor; auto. rewrite Forall_forall in *. intros x Hx. apply in_map_iff in Hx as ([b y] & <- & Hx).
    apply filter_In in Hx as [Hx _]. apply in_combine_r in Hx. auto.
  - exact Hsort.
  - intros c m.
    assert (Hlen' : List.length sel = List.length (slots h 0)).
    { rewrite Hlen, <- (Hslots_snd h 0), map_length. auto. }
    assert (Hsel' : forall i s cm, nth_error sel i = Some s -> nth_error (slots h 0) i = Some cm ->
       (s = true <-> fltb F (m_loss (snd cm)) (finf F) = true /\ forall m', In m' (map snd (firstn i (slots h 0))) -> fleb F (m_loss m') (m_loss (snd cm)) = false)).
    { intros i s cm H1 H2. rewrite (Hsel i s (snd cm) H1). 2:{ rewrite <- (Hslots_snd h 0). apply map_nth_error. auto. }
      cbn [app]. rewrite <- (Hslots_snd h 0), firstn_map. reflexivity. }
    assert (Hbefore : forall i c m, nth_error (slots h 0) i = Some (c, m) -> forall c' m', In (c', m') (firstn i (slots h 0)) <-> c' < c /\ stored h c' m').
    { intros i c1 m1 Hi c' m'. destruct (Hslots_sorted h 0) as [Hs _]. apply nth_error_split in Hi as (l1 & l2 & El & Hl).
      rewrite El in Hs |- *. rewrite firstn_app, Hl, Nat.sub_diag, firstn_all2 by lia. cbn [firstn]. rewrite app_nil_r.
      apply sorted_split in Hs as (Hs1 & Hs2 & Hcross). inversion Hs2 as [|? ? Hs3 Hf]; subst.
      assert (Hin : forall q, In q (l1 ++ (c1, m1) :: l2) <-> exists k, fst q = k /\ stored h k (snd q)).
      { intros [qc qm]. rewrite <- El, Hslots_in. cbn. firstorder. }
      split.
      - intros H. split; [apply (Hcross _ (c1, m1) H); left; auto|].
        destruct (proj1 (Hin (c', m'))) as (k & Hk & Hst); [apply in_or_app; auto|]. cbn in *. subst k. auto.
      - intros [Hlt Hst]. destruct (in_app_or _ _ _ (proj2 (Hin (c', m')) (ex_intro _ c' (conj eq_refl Hst)))) as [H|[H|H]]; auto.
        + injection H as <- <-. lia.
        + rewrite Forall_forall in Hf. apply Hf in H. cbn in H. lia. }
    split.
    + intros H. apply in_map_iff in H as ([s [c1 m1]] & [= -> ->] & H). apply filter_In in H as [H Hs]. cbn in Hs. subst s.
      apply In_nth_error in H as [i Hi].
      assert (nth_error sel i = Some true /\ nth_error (slots h 0) i = Some (c, m)) as [H1 H2].
      { clear -Hi. revert sel i Hi. generalize (slots h 0). induction l as [|a l IH]; intros [|s sel] [|i]; cbn; try discriminate; auto.
        - intros [= -> ->]. auto. }
      pose proof (proj1 (Hsel' i true _ H1 H2) eq_refl) as [Hfin Hno]. cbn in *.
      assert (Hst : stored h c m).
      { apply nth_error_In in H2. apply Hslots_in in H2 as (k & -> & Hk). exact Hk. }
      split; auto. split; auto. intros c' m' Hlt Hst'. apply Hno. apply in_map_iff. exists (c', m'). split; auto.
      apply (Hbefore i c m H2). auto.
    + intros (Hst & Hfin & Hno). assert (Hin : In (c, m) (slots h 0)) by (apply Hslots_in; exists c; auto).
      apply In_nth_error in Hin as [i Hi].
      destruct (nth_error sel i) as [s|] eqn:Es.
      2:{ apply nth_error_None in Es. assert (i < List.length (slots h 0)) by (apply nth_error_Some; congruence). lia. }
      assert (s = true).
      { apply (Hsel' i s (c, m) Es Hi). split; auto. intros m' Hm'. apply in_map_iff in Hm' as ([c1 m1] & <- & Hin').
        apply (Hbefore i c m Hi) in Hin' as [Hlt Hst']. cbn. eapply Hno; eauto. }
      subst s. apply in_map_iff. exists (true, (c, m)). split; auto. apply filter_In. split; auto.
      clear -Es Hi. revert sel i Es Hi. generalize (slots h 0). induction l as [|a l IH]; intros [|s sel] [|i]; cbn; try discriminate; auto.
      * intros [= ->] [= ->]. auto.
      * intros H1 H2. right. eauto.
Qed.

(** ** C26 *)
(** [i] comes before [j] in age order: older, or equally old at a smaller position. *)
Definition older {T} (ms : list (member T)) (i j : nat) : Prop :=
  exists a b, nth_error ms i = Some a /\ nth_error ms j = Some b /\ (m_birth a < m_birth b \/ m_birth a = m_birth b /\ i < j).

Definition lex (p q : nat * nat) : Prop := snd p < snd q \/ snd p = snd q /\ fst p < fst q.

Lemma min_index_spec bs : forall i best, fst best < i ->
  let r := min_index_from bs i best in
  (r = best \/ exists k, nth_error bs k = Some (snd r) /\ fst r = i + k)
  /\ (lex r best \/ r = best) /\ (forall k b, nth_error bs k = Some b -> lex r (i + k, b) \/ r = (i + k, b)).
Proof.
  unfold lex. induction bs as [|b bs IH]; intros i best Hi; cbn [min_index_from].
  - split; auto. split; auto. intros [|k] b; discriminate.
  - set (best' := if b <? snd best then (i, b) else best).
    assert (Hb' : fst best' < S i) by (subst best'; destruct (b <? snd best); cbn; lia).
    destruct (IH (S i) best' Hb') as (H1 & H2 & H3). cbn zeta. set (r := min_index_from bs (S i) best') in *.
    assert (Hlex : lex r best' \/ r = best') by exact H2. unfold lex in Hlex.
    split; [|split].
    + destruct H1 as [->|(k & Hk & Hf)].
      * subst best'. destruct (b <? snd best); auto. right. exists 0. cbn. split; auto.
      * right. exists (S k). cbn. split; auto. lia.
    + subst best'. destruct (Nat.ltb_spec b (snd best)); [|exact Hlex]. cbn in *. destruct Hlex as [Hx|Hx]; [left; lia|]. rewrite Hx. cbn. lia.
    + intros [|k] b' Hk; cbn in Hk.
      * injection Hk as <-. rewrite Nat.add_0_r. subst best'. destruct (Nat.ltb_spec b (snd best)).
        -- destruct Hlex as [Hlex|Hlex]; auto.
        -- left. cbn. destruct Hlex as [Hlex|Hlex]; [lia|]. rewrite Hlex. lia.
      * rewrite <- Nat.add_succ_comm. auto.
Qed.

(** C26: [replace_oldest] replaces exactly the member that is first in age order. *)
Theorem C26_replace_oldest : forall (T : Type) (ms : list (member T)) (child : member T),
  ms <> [] ->
  exists i ms', replace_oldest ms child = Ok ms' /\ i < List.length ms
    /\ (forall j, j < List.length ms -> j <> i -> older ms i j)
    /\ List.length ms' = List.length ms /\ nth_error ms' i = Some child
    /\ forall j, j <> i -> nth_error ms' j = nth_error ms j.
Proof.
  intros T ms child Hne. unfold replace_oldest, oldest_index. destruct ms as [|m0 ms]; [contradiction|]. cbn [map].
  destruct (min_index_spec (map m_birth ms) 1 (0, m_birth m0)) as (H1 & H2 & H3); [cbn; lia|].
  set (r := min_index_from (map m_birth ms) 1 (0, m_birth m0)) in *. cbn [bind].
  assert (Hr : exists m, nth_error (m0 :: ms) (fst r) = Some m /\ m_birth m = snd r).
  { destruct H1 as [->|(k & Hk & ->)]; [exists m0; auto|].
    destruct (nth_error ms k) as [m|] eqn:Em.
    - erewrite map_nth_error in Hk by eauto. injection Hk as Hk. exists m. cbn. auto.
    - apply nth_error_None in Em. assert (k < List.length (map m_birth ms)) by (apply nth_error_Some; congruence).
      rewrite map_length in H. lia. }
  destruct Hr as (m & Hm & Hb).
  assert (Hlt : fst r < List.length (m0 :: ms)) by (apply nth_error_Some; congruence).
  exists (fst r), (upd (m0 :: ms) (fst r) child). unfold set_index.
  destruct (Nat.ltb_spec (fst r) (List.length (m0 :: ms))); [|lia]. split; auto. split; auto. split; [|split; [|split]].
  - intros j Hj Hji. destruct (nth_error (m0 :: ms) j) as [mj|] eqn:Ej; [|apply nth_error_None in Ej; lia].
    exists m, mj. split; auto. split; auto. rewrite Hb. unfold lex in *. destruct j as [|j]; cbn in Ej.
    + injection Ej as <-. destruct H2 as [H2|H2]; [exact H2|]. rewrite H2 in Hji. cbn in Hji. lia.
    + assert (Hk : nth_error (map m_birth ms) j = Some (m_birth mj)) by (apply map_nth_error; auto).
      destruct (H3 _ _ Hk) as [H4|H4]; [exact H4|]. rewrite H4 in Hji. cbn in Hji. lia.
  - apply upd_length.
  - apply nth_error_upd_same. auto.
  - intros j Hj. apply nth_error_upd_other. auto.
Qed.

(** The first two elements in age order. *)
Definition two_first (f s : option (nat * nat)) (seen : list (nat * nat)) : Prop :=
  match f, s with
  | None, None => seen = []
  | Some p, None => seen = [p]
  | Some p, Some q => In p seen /\ In q seen /\ lex p q /\ forall x, In x seen -> x = p \/ x = q \/ lex q x
  | None, Some _ => False
  end.

Lemma two_oldest_loop_spec bs : forall i f s seen,
  two_first f s seen -> (forall x, In x seen -> fst x < i) ->
  let '(f', s') := two_oldest_loop bs i f s in
  two_first f' s' (seen ++ combine (seq i (List.length bs)) bs).
Proof.
  unfold lex. induction bs as [|b bs IH]; intros i f s seen H Hlt; cbn [two_oldest_loop List.length seq combine].
  - destruct (two_oldest_loop [] i f s) as [f' s'] eqn:E. cbn in E. injection E as <- <-. rewrite app_nil_r. exact H.
  - assert (Hnext : forall f' s', two_first f' s' (seen ++ [(i, b)]) ->
       let '(f'', s'') := two_oldest_loop bs (S i) f' s' in two_first f'' s'' (seen ++ (i, b) :: combine (seq (S i) (List.length bs)) bs)).
    { intros f' s' Hn. specialize (IH (S i) f' s' (seen ++ [(i, b)]) Hn). rewrite <- app_assoc in IH. apply IH.
      intros x Hx. apply in_app_or in Hx as [Hx|[<-|[]]]; [apply Hlt in Hx; lia|cbn; lia]. }
    destruct f as [[ifst bf]|].
    2:{ destruct s as [?|]; [contradiction H|]. cbn in H. subst seen. apply (Hnext _ None). reflexivity. }
    destruct s as [[i2 b2]|].
    + destruct H as (Hp & Hq & Hlex & Hall). unfold lex in *. cbn [fst snd] in *.
      pose proof (Hlt _ Hp) as Hi1. pose proof (Hlt _ Hq) as Hi2. cbn in Hi1, Hi2.
      destruct (Nat.ltb_spec b bf).
      * apply Hnext. cbn. unfold lex. cbn [fst snd]. split; [apply in_or_app; right; left; auto|]. split; [apply in_or_app; auto|].
        split; [lia|]. intros x Hx. apply in_app_or in Hx as [Hx|[<-|[]]]; auto.
        destruct (Hall x Hx) as [->|[->|Hl]]; auto; right; right; cbn; lia.
      * destruct ((b <? b2) && negb (ifst =? i)) eqn:E.
        -- apply andb_true_iff in E as [E _]. apply Nat.ltb_lt in E. apply Hnext. cbn. unfold lex. cbn [fst snd].
           split; [apply in_or_app; auto|]. split; [apply in_or_app; right; left; auto|]. split; [lia|].
           intros x Hx. apply in_app_or in Hx as [Hx|[<-|[]]]; auto.
           destruct (Hall x Hx) as [->|[->|Hl]]; auto; right; right; cbn; lia.
        -- assert (b2 <= b).
           { apply andb_false_iff in E as [E|E]; [apply Nat.ltb_ge in E; auto|]. apply negb_false_iff, Nat.eqb_eq in E. lia. }
           apply Hnext. cbn. unfold lex. cbn [fst snd]. split; [apply in_or_app; auto|]. split; [apply in_or_app; auto|]. split; [lia|].
           intros x Hx. apply in_app_or in Hx as [Hx|[<-|[]]]; auto. right; right. cbn. lia.
    + cbn in H. subst seen. pose proof (Hlt (ifst, bf) (or_introl eq_refl)) as Hi1. cbn in Hi1. destruct (Nat.ltb_spec b bf).
      * apply Hnext. cbn. unfold lex. cbn. split; [auto|]. split; [auto|]. split; [lia|]. intros x [<-|[<-|[]]]; auto.
      * destruct (Nat.eqb_spec ifst i); [lia|]. apply Hnext. cbn. unfold lex. cbn. split; [auto|]. split; [auto|]. split; [lia|]. intros x [<-|[<-|[]]]; auto.
Qed.

Lemma in_births {T} (ms : list (member T)) x : In x (combine (seq 0 (List.length (map m_birth ms))) (map m_birth ms)) <->
  exists m, nth_error ms (fst x) = Some m /\ snd x = m_birth m.
Proof.
  rewrite map_length. destruct x as [i b]. cbn.
  assert (H : forall k, In (i, b) (combine (seq k (List.length ms)) (map m_birth ms)) <-> exists m, k <= i /\ nth_error ms (i - k) = Some m /\ b = m_birth m).
  { induction ms as [|m ms IH]; intros k; cbn.
    - split; [intros []|]. intros (m & _ & H & _). destruct (i - k); discriminate.
    - rewrite IH. split.
      + intros [[= <- <-]|(m' & Hk & H & ->)]; [exists m; rewrite Nat.sub_diag; auto|].
        exists m'. split; [lia|]. replace (i - k) with (S (i - S k)) by lia. auto.
      + intros (m' & Hk & H & ->). destruct (i - k) as [|d] eqn:Ed; cbn in H.
        * injection H as <-. left. f_equal. lia.
        * right. exists m'. split; [lia|]. replace (i - S k) with d by lia. auto. }
  rewrite H. split; intros (m & Hm); exists m; rewrite Nat.sub_0_r in *; intuition lia.
Qed.

(** [replace_two_oldest] replaces exactly the first two members in age order. *)
Theorem C26_replace_two_oldest : forall (T : Type) (ms : list (member T)) (a b : member T),
  2 <= List.length ms ->
  exists i1 i2 ms', replace_two_oldest ms a b = Ok ms' /\ i1 < List.length ms /\ i2 < List.length ms
    /\ older ms i1 i2 /\ (forall j, j < List.length ms -> j <> i1 -> j <> i2 -> older ms i2 j)
    /\ List.length ms' = List.length ms /\ nth_error ms' i1 = Some a /\ nth_error ms' i2 = Some b
    /\ forall j, j <> i1 -> j <> i2 -> nth_error ms' j = nth_error ms j.
Proof.
  intros T ms a b Hlen. unfold replace_two_oldest, two_oldest_indices.
  pose proof (two_oldest_loop_spec (map m_birth ms) 0 None None [] eq_refl ltac:(intros ? [])) as H. cbn [app] in H.
  destruct (two_oldest_loop (map m_birth ms) 0 None None) as [f s].
  assert (Hcl : List.length (combine (seq 0 (List.length (map m_birth ms))) (map m_birth ms)) = List.length ms).
  { rewrite combine_length, seq_length, map_length. lia. }
  destruct f as [[i1 b1]|], s as [[i2 b2]|]; cbn in H.
  2:{ rewrite H in Hcl. cbn in Hcl. lia. }
  2:{ contradiction. }
  2:{ rewrite H in Hcl. cbn in Hcl. lia. }
  destruct H as (Hp & Hq & Hlex & Hall). unfold lex in *. cbn [fst snd] in *.
  apply in_births in Hp as (m1 & Hm1 & Hb1). apply in_births in Hq as (m2 & Hm2 & Hb2). cbn [fst snd] in *. subst b1 b2.
  assert (i1 < List.length ms) by (apply nth_error_Some; congruence).
  assert (i2 < List.length ms) by (apply nth_error_Some; congruence).
  assert (i1 <> i2) by (intros ->; rewrite Hm1 in Hm2; injection Hm2 as ->; lia).
  cbn [expect bind]. unfold set_index. destruct (Nat.ltb_spec i1 (List.length ms)); [|lia]. cbn [bind].
  rewrite upd_length. destruct (Nat.ltb_spec i2 (List.length ms)); [|lia].
  exists i1, i2, (upd (upd ms i1 a) i2 b). split; auto. split; auto. split; auto. split; [exists m1, m2; auto|]. split; [|split; [|split; [|split]]].
  - intros j Hj Hj1 Hj2. destruct (nth_error ms j) as [mj|] eqn:Ej; [|apply nth_error_None in Ej; lia].
    exists m2, mj. split; auto. split; auto.
    destruct (Hall (j, m_birth mj)) as [E|[E|E]].
    + apply in_births. exists mj. auto.
    + congruence.
    + congruence.
    + exact E.
  - rewrite !upd_length. auto.
  - rewrite nth_error_upd_other by auto. apply nth_error_upd_same. auto.
  - apply nth_error_upd_same. rewrite upd_length. auto.
  - intros j Hj1 Hj2. rewrite !nth_error_upd_other by auto. auto.
Qed.

(** ** C27 *)
(** [m] is a copy of migrant [src] under the given identity. *)
Definition copy_of {T} (src : member T) (id birth : nat) (m : member T) : Prop :=
  m_expr m = m_expr src /\ m_plan m = m_plan src /\ m_complexity m = m_complexity src /\ m_loss m = m_loss src
  /\ m_cost m = m_cost src /\ m_parent m = Some (m_id src) /\ m_id m = id /\ m_birth m = birth.

(** [arrivals ms ms' k f]: position [j] of the new population either is as before ([f j = None]) or holds the copy
    number [f j], counted from 0, of some migrant. *)
Definition arrivals {T} (migrants ms ms' : list (member T)) (next_id next_birth n : nat) (f : nat -> option nat) : Prop :=
  List.length ms' = List.length ms
  /\ (forall j, match f j with
                | None => nth_error ms' j = nth_error ms j
                | Some k => k < n /\ exists src m, In src migrants /\ nth_error ms' j = Some m /\ copy_of src (next_id + k) (next_birth + k) m
                end)
  /\ (forall j j' k, f j = Some k -> f j' = Some k -> j = j').

Lemma migrate_loop_spec {T W} (migrants ms0 : list (member T)) id0 birth0 : migrants <> [] -> forall n (r : rng W) ms k f,
  ms <> [] -> arrivals migrants ms0 ms id0 birth0 k f ->
  exists ms' r' f', migrate_loop n ms migrants r (id0 + k) (birth0 + k) = Ok (ms', r', id0 + (k + n), birth0 + (k + n))
    /\ arrivals migrants ms0 ms' id0 birth0 (k + n) f'.
Proof.
  intros Hne. induction n as [|n IH]; intros r ms k f Hms Hf; cbn [migrate_loop].
  - rewrite !Nat.add_0_r. eauto.
  - destruct (usize_range_ok r 0 (List.length ms)) as (loc & r1 & E1 & Hloc); [destruct ms; [contradiction|cbn; lia]|]. rewrite E1. cbn [bind].
    destruct (usize_range_ok r1 0 (List.length migrants)) as (s & r2 & E2 & Hs); [destruct migrants; [contradiction|cbn; lia]|]. rewrite E2. cbn [bind].
    destruct (nth_error migrants s) as [src|] eqn:Es; [|apply nth_error_None in Es; lia]. unfold index. rewrite Es. cbn [expect bind].
    unfold set_index. destruct (Nat.ltb_spec loc (List.length ms)); [|lia]. cbn [bind].
    set (m := mkMember _ _ _ _ _ _ _ _).
    destruct Hf as (Hl & Hj & Hinj).
    destruct (IH r2 (upd ms loc m) (S k) (fun j => if j =? loc then Some k else f j)) as (ms' & r' & f' & E & Hf').
    + intros Hx. apply (f_equal (@List.length _)) in Hx. rewrite upd_length in Hx. cbn in Hx. lia.
    + split; [rewrite upd_length; auto|]. split.
      * intros j. destruct (Nat.eqb_spec j loc) as [->|Hjl].
        -- split; [lia|]. exists src, m. split; [eapply nth_error_In; eauto|]. split; [apply nth_error_upd_same; auto|]. subst m. repeat split.
        -- specialize (Hj j). destruct (f j) as [k'|].
           ++ destruct Hj as (Hk & src' & m' & Hin & Hn & Hc). split; [lia|]. exists src', m'. rewrite nth_error_upd_other by auto. auto.
           ++ rewrite nth_error_upd_other by auto. auto.
      * intros j j' k'. destruct (Nat.eqb_spec j loc) as [->|Hjl], (Nat.eqb_spec j' loc) as [->|Hjl']; auto.
        -- intros [= <-] H'. specialize (Hj j'). rewrite H' in Hj. lia.
        -- intros H' [= <-]. specialize (Hj j). rewrite H' in Hj. lia.
        -- apply Hinj.
    + replace (id0 + k + 1) with (id0 + S k) by lia. replace (birth0 + k + 1) with (birth0 + S k) by lia.
      rewrite E. exists ms', r', f'. rewrite <- Nat.add_succ_comm. auto.
Qed.

(** C27: migration never panics, keeps the population size, and every position either keeps its member or holds a copy
    of a migrant: same expression, plan, complexity, loss and cost, the migrant's id as parent, and an id and birth
    stamp drawn from the counters, different for different positions; the counters advance by the number of copies made,
    which is the least of the sampled count, the population size and the number of migrants (0 if the fraction is not positive or the mean not finite). *)
Theorem C27_migration :
  forall (T W : Type) (FW : FloatOps W) (of_nat : nat -> W) (poisson : rng W -> W -> nat * rng W)
    (ms migrants : list (member T)) (frac : W) (r : rng W) (next_id next_birth : nat),
  exists ms' r' n f,
    migrate_into FW of_nat poisson ms migrants frac r next_id next_birth = Ok (ms', r', next_id + n, next_birth + n)
    /\ n <= List.length ms /\ n <= List.length migrants /\ n <= fst (poisson r (fmul FW (of_nat (List.length ms)) frac))
    /\ (fleb FW frac (fzero FW) = true -> n = 0)
    /\ (fleb FW frac (fzero FW) = false -> ffinite FW (fmul FW (of_nat (List.length ms)) frac) = true -> ms <> [] ->
        n = Nat.min (Nat.min (fst (poisson r (fmul FW (of_nat (List.length ms)) frac))) (List.length ms)) (List.length migrants))
    /\ arrivals migrants ms ms' next_id next_birth n f.
Proof.
  intros T W FW of_nat poisson ms migrants frac r id0 b0.
  remember (Nat.min (Nat.min (fst (poisson r (fmul FW (of_nat (List.length ms)) frac))) (List.length ms)) (List.length migrants)) as N eqn:HN.
  assert (Hnop : forall r' : rng W, N = 0 \/ fleb FW frac (fzero FW) = true \/ ffinite FW (fmul FW (of_nat (List.length ms)) frac) = false \/ ms = [] ->
      exists ms' r'' n f, Ok (ms, r', id0, b0) = Ok (ms', r'', id0 + n, b0 + n)
      /\ n <= List.length ms /\ n <= List.length migrants /\ n <= fst (poisson r (fmul FW (of_nat (List.length ms)) frac))
      /\ (fleb FW frac (fzero FW) = true -> n = 0)
      /\ (fleb FW frac (fzero FW) = false -> ffinite FW (fmul FW (of_nat (List.length ms)) frac) = true -> ms <> [] -> n = N)
      /\ arrivals migrants ms ms' id0 b0 n f).
  { intros r' Hwhy. exists ms, r', 0, (fun _ => None). rewrite !Nat.add_0_r. split; auto. do 3 (split; [lia|]). split; auto. split; [|split; [auto|split; [auto|discriminate]]].
    intros H1 H2 H3. destruct Hwhy as [->|[Hw|[Hw|Hw]]]; congruence. }
  unfold migrate_into. destruct migrants as [|mg mgs] eqn:Emg; [apply Hnop; left; rewrite HN; cbn; lia|]. rewrite <- Emg in *.
  destruct (fleb FW frac (fzero FW)) eqn:Efr; [apply Hnop; auto|].
  destruct ms as [|m0 ms0] eqn:Ems; [apply Hnop; auto|]. rewrite <- Ems in *.
  destruct (ffinite FW _) eqn:Efin; cbn [negb]; [|apply Hnop; auto].
  destruct (poisson r _) as [n0 r1] eqn:Ep. cbn [fst] in HN.
  destruct (Nat.eqb_spec (Nat.min (Nat.min n0 (List.length ms)) (List.length migrants)) 0) as [Hz|Hnz]; [apply Hnop; left; rewrite HN; exact Hz|].
  set (n := Nat.min (Nat.min n0 (List.length ms)) (List.length migrants)) in *.
  destruct (migrate_loop_spec migrants ms id0 b0 ltac:(rewrite Emg; discriminate) n r1 ms 0 (fun _ => None) ltac:(rewrite Ems; discriminate))
    as (ms' & r' & f & E & Hf).
  { split; auto. split; auto. discriminate. }
  rewrite !Nat.add_0_r in E. cbn [Nat.add] in *. exists ms', r', n, f. split; auto. cbn [fst]. split; [lia|]. split; [lia|]. split; [lia|]. split; [congruence|]. split; [intros _ _ _; rewrite HN; reflexivity|auto].
Qed.

(** [best_sub_pop] returns the [topn] best members (all if there are fewer), best first. *)
Theorem C27_best_sub_pop : forall (T : Type) (F : FloatOps T) (ms : list (member T)) (topn : nat),
  OrderLaws F -> Forall (fun m => num F (m_cost m)) ms ->
  exists best rest, best_sub_pop F ms topn = Ok best
    /\ List.length best = Nat.min topn (List.length ms)
    /\ Permutation ms (best ++ rest)
    /\ StronglySorted (fun a b => fleb F (m_cost a) (m_cost b) = true) (best ++ rest).
Proof.
  intros T F ms topn L Hnum. unfold best_sub_pop.
  assert (Hd : ms = [] \/ exists d : member T, True) by (destruct ms as [|d ms]; eauto). destruct Hd as [->|[d _]].
  { cbn. exists [], []. rewrite Nat.min_0_r. cbn. repeat split; auto. constructor. }
  set (cost := fun i => match nth_error ms i with Some m => m_cost m | None => fnan F end).
  set (cmp := fun i j => cmp_or_greater F (cost i) (cost j)).
  set (idxs := sort_by cmp (seq 0 (List.length ms))).
  assert (Hle : forall x y, num F x -> num F y -> fltb F y x = false <-> fleb F x y = true).
  { intros x y Hx Hy. unfold fleb. rewrite orb_true_iff. split.
    - intros H. destruct (ol_total F L x y Hx Hy) as [E|[E|E]]; auto. congruence.
    - intros [E|E]; apply not_true_is_false; intros Hc.
      + pose proof (ol_trans F L _ _ _ E Hc) as X. rewrite (ol_irr F L) in X. discriminate.
      + rewrite (ol_eq_r F L _ _ y E), (ol_irr F L) in Hc. discriminate. }
  assert (Hsorted : StronglySorted (not_less cmp) idxs).
  { apply (sort_by_sorted cmp (fun i => i < List.length ms)).
    - intros x y z Hx Hy Hz. unfold not_less, cmp. rewrite !is_less_cmp.
      assert (Hn : forall i, i < List.length ms -> num F (cost i)).
      { intros i Hi. subst cost. cbn. destruct (nth_error ms i) eqn:E; [|apply nth_error_None in E; lia].
        rewrite Forall_forall in Hnum. apply Hnum. eapply nth_error_In; eauto. }
      rewrite !Hle by auto. unfold fleb. rewrite !orb_true_iff. intros [H1|H1] [H2|H2].
      + left. eapply (ol_trans F L); eauto.
      + left. rewrite <- (ol_eq_r F L _ _ _ H2). auto.
      + left. rewrite (ol_eq_l F L _ _ _ H1). auto.
      + right. eapply (ol_eq_trans F L); eauto.
    - intros x y _ _. unfold not_less, cmp. rewrite !is_less_cmp. intros H. apply not_true_is_false. intros Hc.
      pose proof (ol_trans F L _ _ _ H Hc) as X. rewrite (ol_irr F L) in X. discriminate.
    - apply Forall_forall. intros i Hi. apply in_seq in Hi. lia. }
  assert (Hperm : Permutation (seq 0 (List.length ms)) idxs) by apply sort_by_perm.
  assert (Hlen : List.length idxs = List.length ms) by (rewrite <- (Permutation_length Hperm); apply seq_length).
  assert (Hin : forall i, In i idxs -> i < List.length ms).
  { intros i Hi. apply (Permutation_in _ (Permutation_sym Hperm)) in Hi. apply in_seq in Hi. lia. }
  set (get := fun i => nth i ms d).
  assert (Hget : forall i, i < List.length ms -> index ms i = Ok (get i)).
  { intros i Hi. unfold index, get. rewrite (nth_error_nth' ms d Hi). reflexivity. }
  assert (Hmap : forall l, (forall i, In i l -> i < List.length ms) -> mapM (index ms) l = Ok (map get l)).
  { induction l as [|i l IH]; intros H; cbn; auto. rewrite Hget by (apply H; left; auto). cbn. rewrite IH by (intros; apply H; right; auto). reflexivity. }
  exists (map get (firstn (Nat.min topn (List.length idxs)) idxs)), (map get (skipn (Nat.min topn (List.length idxs)) idxs)).
  split; [|split; [|split]].
  - apply Hmap. intros i Hi. apply Hin. rewrite <- (firstn_skipn (Nat.min topn (List.length idxs)) idxs). apply in_or_app; auto.
  - rewrite map_length, firstn_length. lia.
  - rewrite <- map_app, firstn_skipn. rewrite <- (Permutation_map get Hperm).
    assert (E : map get (seq 0 (List.length ms)) = ms).
    { apply nth_error_ext. intros i. destruct (Nat.lt_ge_cases i (List.length ms)).
      - rewrite (map_nth_error get i (seq 0 (List.length ms)) (d := i)).
        + symmetry. apply nth_error_nth'. auto.
        + rewrite (nth_error_nth' _ 0) by (rewrite seq_length; auto). rewrite seq_nth by auto. reflexivity.
      - rewrite !(proj2 (nth_error_None _ _)); auto. rewrite map_length, seq_length. auto. }
    rewrite E. apply Permutation_refl.
  - rewrite <- map_app, firstn_skipn.
    clear -Hsorted Hin Hle Hnum Hget. revert Hin. induction Hsorted as [|i l Hs IH Hf]; intros Hin; cbn; constructor.
    + apply IH. intros j Hj. apply Hin. right; auto.
    + apply Forall_forall. intros m Hm. apply in_map_iff in Hm as (j & <- & Hj). rewrite Forall_forall in Hf. specialize (Hf j Hj).
      unfold not_less, cmp in Hf. rewrite is_less_cmp in Hf.
      assert (Hc : forall k, k < List.length ms -> cost k = m_cost (get k) /\ num F (m_cost (get k))).
      { intros k Hk. specialize (Hget k Hk). unfold index in Hget. unfold cost. destruct (nth_error ms k) eqn:E; [|discriminate]. cbn in Hget. injection Hget as ->.
        split; auto. rewrite Forall_forall in Hnum. apply Hnum. eapply nth_error_In; eauto. }
      destruct (Hc i) as [E1 N1]; [apply Hin; left; auto|]. destruct (Hc j) as [E2 N2]; [apply Hin; right; auto|].
      rewrite E1, E2 in Hf. apply Hle; auto.
Qed.

(** ** Concrete cases, in binary64 *)
(** A small stand-in for [usize::MAX], to keep the examples computable. *)
Definition usize_max_demo : nat := S u16_max.
Definition demo_plan : plan := mkPlan [] 0 (SVar 0) 0%N.
Definition demo_opts1 : size_opts := mkSizeOpts 1 1 None [] 10 [] [].
Lemma demo_widths1 : widths usize_max_demo 2 demo_opts1.
Proof. split; try discriminate; unfold usize_max_demo; cbn [demo_opts1 complexity_of_constants complexity_of_variables]; try (unfold u16_max; lia); cbn; discriminate. Qed.
Definition demo_member (id birth : nat) (t : tree) (cost : Z) : member _ :=
  mkMember id None birth (mkExpr (flatten t) [] []) demo_plan (tsize t) (f64lit cost 0) (f64lit cost 0).
Definition leaf1 := TVar 0.
Definition sum3 := TOp 0 [TVar 0; TVar 1].
Definition demo_hist := [(demo_member 1 10 sum3 7, 5); (demo_member 2 11 leaf1 9, 5); (demo_member 3 12 sum3 4, 5);
                         (demo_member 4 13 sum3 4, 5); (demo_member 5 14 sum3 1, 2)].

(** Member 3 wins slot 3 over members 1 and 4 (tie); member 5 is too large for the limit 2 in force and is not stored. *)
Example C24_case :
  Forall (fun p => valid_member 2 2 (fun _ _ => true) (fst p) /\ snd p < usize_max_demo) demo_hist
  /\ exists h, offer_all f64ops usize_max_demo 2 demo_opts1 [] (hof_new 4) demo_hist = Ok h
  /\ map (option_map m_id) h = [None; Some 2; None; Some 3; None].
Proof.
  split.
  - unfold demo_hist. repeat apply Forall_cons; try apply Forall_nil; (split; [|cbn [snd]; unfold usize_max_demo, u16_max; lia]);
      (exists sum3 + exists leaf1); split; try reflexivity; cbn; repeat split; lia.
  - eexists. split; vm_compute; reflexivity.
Qed.

(** Losses 9 at complexity 1 and 4 at complexity 3 are both on the front; an infinite or NaN loss never is. *)
Example C25_case :
  map m_id (pareto_front f64ops [None; Some (demo_member 2 11 leaf1 9); None; Some (demo_member 3 12 sum3 4)]) = [2; 3]
  /\ pareto_front f64ops [None; Some (mkMember 1 None 0 (mkExpr [] [] []) demo_plan 1 (fnan f64ops) (fnan f64ops));
                          Some (mkMember 1 None 0 (mkExpr [] [] []) demo_plan 2 (finf f64ops) (finf f64ops))] = []
  /\ map m_id (pareto_front f64ops [None; Some (demo_member 2 11 leaf1 3); None; Some (demo_member 3 12 sum3 4)]) = [2].
Proof. vm_compute. auto. Qed.

Example C26_case :
  let ms := [demo_member 1 7 leaf1 1; demo_member 2 3 leaf1 1; demo_member 3 5 leaf1 1; demo_member 4 3 leaf1 1] in
  match replace_oldest ms (demo_member 9 99 sum3 0) with Ok l => map m_id l = [1; 9; 3; 4] | _ => False end
  /\ match replace_two_oldest ms (demo_member 8 98 sum3 0) (demo_member 9 99 sum3 0) with Ok l => map m_id l = [1; 8; 3; 9] | _ => False end.
Proof. vm_compute. auto. Qed.

Example C27_case :
  let ms := [demo_member 1 7 leaf1 5; demo_member 2 3 leaf1 2; demo_member 3 5 leaf1 4] in
  match best_sub_pop f64ops ms 2 with Ok l => map m_id l = [2; 3] | _ => False end
  /\ Forall (fun m => num f64ops (m_cost m)) ms
  /\ match migrate_into f64ops (fun n => f64lit (Z.of_nat n) 0) (fun r _ => (2, r)) ms [demo_member 7 1 sum3 1; demo_member 8 1 sum3 2]
             (fone f64ops) (mkRng (fun n => n) (fun _ => fzero f64ops)) 100 200 with
     | Ok (l, _, i, b) => map m_id l = [100; 2; 101] /\ map m_parent l = [Some 8; None; Some 8] /\ i = 102 /\ b = 202
     | _ => False
     end.
Proof. split; [vm_compute; auto|]. split; [repeat constructor|]. vm_compute. auto. Qed.

Print Assumptions C24_hall_of_fame.
Print Assumptions C24_slots_only_improve.
Print Assumptions C25_pareto_front.
Print Assumptions C26_replace_oldest.
Print Assumptions C26_replace_two_oldest.
Print Assumptions C27_migration.
Print Assumptions C27_best_sub_pop.
