(** Operator combination (simplify.rs): parsing, printing, and values in exact arithmetic. *)
From Verif Require Import Base BaseLemmas Node Tree NodeProofs Compile Eval Utils UtilsProofs PropUtils Simplify FoldProofs CombineProofs.
From Coq Require Import Ring_theory Ring.

(** [rep ar id t F]: the arena below [id] is the tree [t], and occupies the nodes [F]. *)
Inductive rep (ar : list anode) : nat -> tree -> list nat -> Prop :=
| rep_var : forall id f, nth_error ar id = Some (AVar f) -> rep ar id (TVar f) [id]
| rep_const : forall id i, nth_error ar id = Some (AConst i) -> rep ar id (TConst i) [id]
| rep_op : forall id a op ch ts F, nth_error ar id = Some (AOp a op ch) -> List.length ts = a -> reps ar (firstn a ch) ts F ->
    rep ar id (TOp op ts) (id :: F)
with reps (ar : list anode) : list nat -> list tree -> list nat -> Prop :=
| reps_nil : reps ar [] [] []
| reps_cons : forall c cs t ts F1 F2, rep ar c t F1 -> reps ar cs ts F2 -> reps ar (c :: cs) (t :: ts) (F1 ++ F2).
Scheme rep_ind2 := Induction for rep Sort Prop with reps_ind2 := Induction for reps Sort Prop.
Combined Scheme rep_reps_ind from rep_ind2, reps_ind2.

Lemma rep_frame_both ar ar' :
  (forall id t F, rep ar id t F -> (forall p, In p F -> nth_error ar' p = nth_error ar p) -> rep ar' id t F)
  /\ (forall cs ts F, reps ar cs ts F -> (forall p, In p F -> nth_error ar' p = nth_error ar p) -> reps ar' cs ts F).
Proof.
  apply (rep_reps_ind ar
    (fun id t F _ => (forall p, In p F -> nth_error ar' p = nth_error ar p) -> rep ar' id t F)
    (fun cs ts F _ => (forall p, In p F -> nth_error ar' p = nth_error ar p) -> reps ar' cs ts F)).
  - intros id f E H. constructor. rewrite H; cbn; auto.
  - intros id i E H. constructor. rewrite H; cbn; auto.
  - intros id a op ch ts F E Hl _ IH H. econstructor; [rewrite H; cbn; eauto|exact Hl|]. apply IH. intros p Hp. apply H. right; auto.
  - constructor.
  - intros c cs t ts F1 F2 _ IH1 _ IH2 H. constructor; [apply IH1|apply IH2]; intros p Hp; apply H; apply in_or_app; auto.
Qed.
Lemma rep_frame ar ar' id t F : rep ar id t F -> (forall p, In p F -> nth_error ar' p = nth_error ar p) -> rep ar' id t F.
Proof. intros H. now apply (proj1 (rep_frame_both ar ar')). Qed.
Lemma reps_frame ar ar' cs ts F : reps ar cs ts F -> (forall p, In p F -> nth_error ar' p = nth_error ar p) -> reps ar' cs ts F.
Proof. intros H. now apply (proj2 (rep_frame_both ar ar')). Qed.

Lemma rep_upd ar id t F p n : rep ar id t F -> ~ In p F -> rep (upd ar p n) id t F.
Proof. intros H Hp. eapply rep_frame; eauto. intros q Hq. apply nth_error_upd_other. intros ->. auto. Qed.

Lemma rep_in ar id t F : rep ar id t F -> In id F.
Proof. destruct 1; left; auto. Qed.

Lemma nodup_app {A} (l m : list A) : NoDup (l ++ m) <-> NoDup l /\ NoDup m /\ (forall x, In x l -> ~ In x m).
Proof.
  induction l as [|x l IH]; cbn.
  - split; [intros H; repeat split; auto; constructor|tauto].
  - rewrite !NoDup_cons_iff, IH, in_app_iff. firstorder congruence.
Qed.

Lemma reps_app ar cs1 ts1 F1 cs2 ts2 F2 : reps ar cs1 ts1 F1 -> reps ar cs2 ts2 F2 -> reps ar (cs1 ++ cs2) (ts1 ++ ts2) (F1 ++ F2).
Proof. induction 1; intros H2; cbn; auto. rewrite <- app_assoc. constructor; auto. Qed.

Lemma reps_cons_inv ar c cs ts F : reps ar (c :: cs) ts F ->
  exists t ts' F1 F2, ts = t :: ts' /\ F = F1 ++ F2 /\ rep ar c t F1 /\ reps ar cs ts' F2.
Proof. intros H. inversion H; subst. do 4 eexists. repeat split; eauto. Qed.

Lemma reps_len ar cs ts F : reps ar cs ts F -> List.length ts = List.length cs.
Proof. induction 1; cbn; auto. Qed.

Section Parse.
  Context (D nf nc : nat) (known : nat -> nat -> bool).

  Lemma rep_ut_both nc' ar : wfa D nf known nc' ar ->
    (forall id t F, rep ar id t F -> ut ar id = t) /\ (forall cs ts F, reps ar cs ts F -> map (ut ar) cs = ts).
  Proof.
    intros W. apply (rep_reps_ind ar (fun id t F _ => ut ar id = t) (fun cs ts F _ => map (ut ar) cs = ts)).
    - intros id f E. now apply ut_var.
    - intros id i E. now apply ut_const.
    - intros id a op ch ts F E _ _ IH. rewrite (ut_op _ _ _ _ _ _ _ _ _ W E). now rewrite IH.
    - auto.
    - intros c cs t ts F1 F2 _ IH1 _ IH2. cbn [map]. now rewrite IH1, IH2.
  Qed.

  (** What parsing one tree appends. *)
  Definition Pparse (t : tree) : Prop := forall ar st,
    tree_ok D nf nc known t ->
    exists new F, foldM (parse_step D) (flatten t) (Some (ar, st)) = Ok (Some (ar ++ new, (List.length ar + tsize t - 1) :: st))
      /\ List.length new = tsize t
      /\ (forall p n, nth_error new p = Some n -> wfn D nf known nc (List.length ar + p) n)
      /\ rep (ar ++ new) (List.length ar + tsize t - 1) t F /\ NoDup F
      /\ (forall p, In p F -> List.length ar <= p < List.length ar + tsize t).

  Fixpoint roots (s : nat) (ts : list tree) : list nat :=
    match ts with [] => [] | t :: ts' => (s + tsize t - 1) :: roots (s + tsize t) ts' end.

  Lemma roots_length s ts : List.length (roots s ts) = List.length ts.
  Proof. revert s; induction ts; intros; cbn; auto. Qed.
  Lemma roots_bound ts : forall s, Forall (fun c => c < s + sum_list (map tsize ts)) (roots s ts).
  Proof.
    induction ts as [|t ts IH]; intros s; cbn; constructor.
    - pose proof (tsize_pos t). lia.
    - eapply Forall_impl; [|apply IH]. cbn. intros. lia.
  Qed.

  Lemma parse_list ts : Forall Pparse ts -> forall ar st, Forall (tree_ok D nf nc known) ts ->
    exists new F, foldM (parse_step D) (flat_map flatten ts) (Some (ar, st)) = Ok (Some (ar ++ new, rev (roots (List.length ar) ts) ++ st))
      /\ List.length new = sum_list (map tsize ts)
      /\ (forall p n, nth_error new p = Some n -> wfn D nf known nc (List.length ar + p) n)
      /\ reps (ar ++ new) (roots (List.length ar) ts) ts F /\ NoDup F
      /\ (forall p, In p F -> List.length ar <= p < List.length ar + sum_list (map tsize ts)).
  Proof.
    induction 1 as [|t ts Pt _ IH]; intros ar st Hok.
    - exists [], []. cbn. rewrite app_nil_r. split; auto. split; auto. split; [intros [|p] n E; discriminate|].
      split; [constructor|]. split; [constructor|]. tauto.
    - inversion Hok as [|? ? H1 H2]; subst. cbn [flat_map]. rewrite foldM_app.
      destruct (Pt ar st H1) as (n1 & F1 & E1 & L1 & W1 & R1 & N1 & B1). rewrite E1. cbn [bind].
      destruct (IH (ar ++ n1) ((List.length ar + tsize t - 1) :: st) H2) as (n2 & F2 & E2 & L2 & W2 & R2 & N2 & B2).
      rewrite app_length, L1 in *. exists (n1 ++ n2), (F1 ++ F2). rewrite <- app_assoc in E2, R2. rewrite E2.
      split. { cbn [roots rev]. now rewrite <- app_assoc. }
      split. { cbn. rewrite app_length. lia. }
      split. { intros p n E. destruct (Nat.lt_ge_cases p (tsize t)) as [Hp|Hp].
        - rewrite nth_error_app1 in E by lia. auto.
        - rewrite nth_error_app2 in E by lia. apply W2 in E. rewrite L1 in E. replace (List.length ar + p) with (List.length ar + tsize t + (p - tsize t)) by lia. auto. }
      split. { cbn [roots]. constructor; auto. eapply rep_frame; eauto. intros p Hp. apply B1 in Hp.
        rewrite app_assoc. rewrite nth_error_app1; auto. rewrite app_length. lia. }
      split. { apply nodup_app. split; auto. split; auto. intros x Hx Hx'. apply B1 in Hx. apply B2 in Hx'. lia. }
      intros p Hp. cbn [map sum_list]. apply in_app_or in Hp as [Hp|Hp]; [apply B1 in Hp|apply B2 in Hp]; lia.
  Qed.

  Lemma parse_tree t : Pparse t.
  Proof.
    induction t as [v|i|op ts IH] using tree_ind'; intros ar st Hok.
    - cbn in Hok. exists [AVar v], [List.length ar]. cbn [flatten foldM parse_step bind tsize]. replace (List.length ar + 1 - 1) with (List.length ar) by lia.
      split; auto. split; auto. split; [intros [|[|p]] n E; cbn in E; try discriminate; injection E as <-; exact Hok|].
      split; [constructor; rewrite nth_error_app2, Nat.sub_diag by lia; auto|]. split; [constructor; [cbn; tauto|constructor]|].
      intros p [<-|[]]. lia.
    - cbn in Hok. exists [AConst i], [List.length ar]. cbn [flatten foldM parse_step bind tsize]. replace (List.length ar + 1 - 1) with (List.length ar) by lia.
      split; auto. split; auto. split; [intros [|[|p]] n E; cbn in E; try discriminate; injection E as <-; exact Hok|].
      split; [constructor; rewrite nth_error_app2, Nat.sub_diag by lia; auto|]. split; [constructor; [cbn; tauto|constructor]|].
      intros p [<-|[]]. lia.
    - cbn [tree_ok] in Hok. destruct Hok as (K1 & K2 & K3). rewrite fold_right_and_Forall in K3.
      destruct (parse_list ts IH ar st K3) as (new & F & E & L & W & R & N & B).
      cbn [flatten]. rewrite foldM_app, E. cbn [bind foldM parse_step].
      assert (Ep : popn (List.length ts) (rev (roots (List.length ar) ts) ++ st) = Some (roots (List.length ar) ts, st)).
      { rewrite <- (roots_length (List.length ar) ts). apply popn_app. }
      rewrite Ep. destruct (Nat.leb_spec (List.length ts) D); [|lia]. cbn [assert_ bind].
      set (n0 := AOp (List.length ts) op (roots (List.length ar) ts ++ fill (D - List.length ts) 0)).
      assert (Hn0 : nth_error (ar ++ new ++ [n0]) (List.length ar + List.length new) = Some n0).
      { rewrite app_assoc. rewrite nth_error_app2 by (rewrite app_length; lia). rewrite app_length, Nat.sub_diag. reflexivity. }
      assert (Hpos : 1 <= sum_list (map tsize ts)).
      { destruct ts as [|t ts]; [cbn in K1; lia|]. cbn. pose proof (tsize_pos t). lia. }
      exists (new ++ [n0]), ((List.length ar + List.length new) :: F).
      cbn [tsize]. rewrite <- L. replace (List.length ar + (1 + List.length new) - 1) with (List.length ar + List.length new) by lia.
      split. { rewrite <- app_assoc, app_length. reflexivity. }
      split. { rewrite app_length. cbn. lia. }
      split. { intros p n En. destruct (Nat.lt_ge_cases p (List.length new)) as [Hp|Hp].
        - rewrite nth_error_app1 in En by lia. auto.
        - rewrite nth_error_app2 in En by lia. destruct (p - List.length new) as [|k] eqn:Ek; [|destruct k; discriminate].
          cbn in En. injection En as <-. unfold n0. cbn [wfn]. rewrite app_length, roots_length. unfold fill. rewrite repeat_length.
          split; [lia|]. split; [lia|]. split; auto. split.
          + apply Forall_app. split.
            * pose proof (roots_bound ts (List.length ar)) as Hb. eapply Forall_impl; [|exact Hb]. cbn. intros. lia.
            * apply Forall_forall. intros x Hx. apply repeat_spec in Hx. lia.
          + rewrite skipn_app, roots_length, Nat.sub_diag, skipn_all2 by (rewrite roots_length; lia). cbn.
            apply Forall_forall. intros x Hx. now apply repeat_spec in Hx. }
      split. { econstructor; [exact Hn0|reflexivity|]. rewrite firstn_app, roots_length, Nat.sub_diag, firstn_all2 by (rewrite roots_length; lia).
        cbn [firstn]. rewrite app_nil_r. eapply reps_frame; eauto. intros p Hp. apply B in Hp. rewrite app_assoc. apply nth_error_app1. rewrite app_length. lia. }
      split. { constructor; auto. intros Hin. apply B in Hin. lia. }
      intros p [<-|Hp]; [lia|]. apply B in Hp. lia.
  Qed.

  Lemma parse_spec t : tree_ok D nf nc known t ->
    exists ar F, parse_postfix_to_arena D (flatten t) = Ok (Some (ar, tsize t - 1))
      /\ List.length ar = tsize t /\ wfa D nf known nc ar /\ rep ar (tsize t - 1) t F /\ NoDup F.
  Proof.
    intros Hok. destruct (parse_tree t [] [] Hok) as (ar & F & E & L & W & R & N & _). exists ar, F.
    unfold parse_postfix_to_arena. rewrite E. cbn in *. repeat split; auto.
  Qed.

  Lemma emit_spec ar : wfa D nf known nc ar -> forall fuel id, id < fuel -> id < List.length ar ->
    emit_postfix fuel id ar = Ok (flatten (ut ar id)).
  Proof.
    intros W. induction fuel as [|fuel IH]; intros id H1 H2; [lia|]. cbn [emit_postfix].
    unfold index. destruct (nth_error ar id) as [n|] eqn:E; [|apply nth_error_None in E; lia]. cbn [expect bind].
    destruct n as [v|i|a op ch].
    - now rewrite (ut_var _ _ _ E).
    - now rewrite (ut_const _ _ _ E).
    - pose proof (W _ _ E) as (L & Ha & _ & Hf & _). rewrite (ut_op _ _ _ _ _ _ _ _ _ W E). cbn [flatten].
      rewrite map_length, firstn_length. replace (Nat.min a (List.length ch)) with a by lia.
      assert (G : forall l out, Forall (fun c => c < id) l ->
        foldM (fun out cid => let! more := emit_postfix fuel cid ar in Ok (out ++ more)) l out = Ok (out ++ flat_map flatten (map (ut ar) l))).
      { induction l as [|c l IHl]; intros out Hl; cbn [foldM map flat_map]; [now rewrite app_nil_r|].
        inversion Hl; subst. rewrite IH by lia. cbn [bind]. rewrite IHl by auto. now rewrite <- app_assoc. }
      rewrite G; [reflexivity|]. rewrite Forall_forall in *. intros x Hx. apply Hf. eapply firstn_in; eauto.
  Qed.
End Parse.

(** Values in exact arithmetic. *)
Section Value.
  Context {T : Type} (F : FloatOps T) (O : OpSet T) (cfg : ccfg) (d : T).
  Hypothesis Hring : ring_theory (fzero F) (fone F) (fadd F) (fmul F) (fsub F) (fneg F) eq.
  Hypothesis Hadd : forall k x y, add_id cfg = Some k -> oeval O 2 k [x; y] = fadd F x y.
  Hypothesis Hmul : forall k x y, mul_id cfg = Some k -> oeval O 2 k [x; y] = fmul F x y.
  Hypothesis Hsub : forall k x y, sub_id cfg = Some k -> oeval O 2 k [x; y] = fsub F x y.
  Add Ring Tring : Hring.
  Notation at' := (at_ d).

  (** Every operator with the id of subtraction is binary. *)
  Definition sub_binary (t : tree) : Prop := forall op ts, subtree (TOp op ts) t -> sub_id cfg = Some op -> List.length ts = 2.

  Lemma sub_binary_child op ts c : sub_binary (TOp op ts) -> In c ts -> sub_binary c.
  Proof. intros H Hc o us Hs. apply H. eapply sub_child; eauto. Qed.
  Lemma sub_binary_op op ts : (sub_id cfg = Some op -> List.length ts = 2) -> Forall sub_binary ts -> sub_binary (TOp op ts).
  Proof.
    intros H1 H2 o us Hs. inversion Hs; subst; auto. rewrite Forall_forall in H2. eapply H2; eauto.
  Qed.
  Lemma sub_binary_const i : sub_binary (TConst i).
  Proof. intros o us Hs. inversion Hs. Qed.

  Definition in_range (n : nat) (t : tree) : Prop := forall i, In i (const_ids (flatten t)) -> i < n.
  Lemma in_range_op n op ts : in_range n (TOp op ts) <-> Forall (in_range n) ts.
  Proof.
    unfold in_range. rewrite Forall_forall. split.
    - intros H t Ht i Hi. apply H. apply op_ids. eauto.
    - intros H i Hi. apply op_ids in Hi as (t & Ht & Hi). eapply H; eauto.
  Qed.
  Lemma in_range_mono n m t : n <= m -> in_range n t -> in_range m t.
  Proof. intros H H1 i Hi. apply H1 in Hi. lia. Qed.
  Lemma teval_grow var cs new t : in_range (List.length cs) t -> teval O var (at' (cs ++ new)) t = teval O var (at' cs) t.
  Proof. intros H. apply teval_ext. intros i Hi. apply at_app. auto. Qed.

  Definition vpost (ar : list anode) (cs : list T) (t : tree) (Fp : list nat) (r : cres T) : Prop :=
    let '(id', ar', cs', _) := r in
    exists t' F' new, rep ar' id' t' F' /\ NoDup F' /\ incl F' Fp
      /\ (forall p, ~ In p Fp -> nth_error ar' p = nth_error ar p)
      /\ cs' = cs ++ new /\ in_range (List.length cs') t' /\ sub_binary t'
      /\ forall var, teval O var (at' cs') t' = teval O var (at' cs) t.

  Lemma rep_const_inv ar c i t Fp : nth_error ar c = Some (AConst i) -> rep ar c t Fp -> t = TConst i /\ Fp = [c].
  Proof. intros E H. inversion H; subst; split; congruence. Qed.

  Lemma rep_op_inv2 ar id op c0 c1 tl t Fp : nth_error ar id = Some (AOp 2 op (c0 :: c1 :: tl)) -> rep ar id t Fp ->
    exists t0 t1 F0 F1, t = TOp op [t0; t1] /\ Fp = id :: F0 ++ F1 /\ rep ar c0 t0 F0 /\ rep ar c1 t1 F1.
  Proof.
    intros E H. inversion H as [? ? E'|? ? E'|? a' op' ch' ts G E' Hl Rs]; subst; try congruence. rewrite E in E'. injection E' as El <- <-. rewrite <- El in *. rename Rs into H1.
    cbn [firstn] in H1. apply reps_cons_inv in H1 as (u0 & ts' & G0 & G1 & -> & -> & R0 & H2).
    apply reps_cons_inv in H2 as (u1 & ts'' & G1' & G2 & -> & -> & R1 & H3). inversion H3; subst. rewrite app_nil_r. do 4 eexists. repeat split; eauto.
  Qed.

  Lemma rep_op2 ar id op ch c0 c1 t0 t1 F0 F1 : nth_error ar id = Some (AOp 2 op ch) -> firstn 2 ch = [c0; c1] ->
    rep ar c0 t0 F0 -> rep ar c1 t1 F1 -> rep ar id (TOp op [t0; t1]) (id :: F0 ++ F1).
  Proof.
    intros E Ef R0 R1. econstructor; [exact E|reflexivity|]. rewrite Ef. rewrite <- (app_nil_r F1). repeat constructor; auto.
  Qed.

  Lemma put2_inv ar id a op children l r ar' : put2 ar id a op children l r = Ok ar' ->
    exists ch, firstn 2 ch = [l; r] /\ ar' = upd ar id (AOp a op ch) /\ id < List.length ar.
  Proof.
    unfold put2, set_index. destruct (Nat.ltb_spec 0 (List.length children)); [|discriminate]. cbn [bind]. rewrite upd_length.
    destruct (Nat.ltb_spec 1 (List.length children)); [|discriminate]. cbn [bind].
    destruct (Nat.ltb_spec id (List.length ar)); [|discriminate]. intros E. injection E as <-.
    destruct children as [|x [|y children]]; cbn in *; try lia. eexists. split; [|split; [reflexivity|auto]]. reflexivity.
  Qed.

  Lemma index_ok {A} (l : list A) i v : index l i = Ok v -> nth_error l i = Some v.
  Proof. unfold index. destruct (nth_error l i); cbn; congruence. Qed.
  Lemma index_at cs i v : index cs i = Ok v -> at' cs i = v.
  Proof. intros H. apply index_ok in H. unfold at_. erewrite nth_error_nth; eauto. Qed.

  Lemma a_const_inv ar id r : a_const ar id = Ok r ->
    match r with Some i => nth_error ar id = Some (AConst i) | None => True end.
  Proof. unfold a_const. destruct (index ar id) as [n| |] eqn:E; try discriminate. apply index_ok in E. cbn. intros H. injection H as <-. destruct n; auto. Qed.
  Lemma a_op_inv ar id op r : a_op ar id op = Ok r ->
    match r with Some (a, ch) => nth_error ar id = Some (AOp a op ch) | None => True end.
  Proof.
    unfold a_op. destruct (index ar id) as [n| |] eqn:E; try discriminate. apply index_ok in E. cbn. intros H. injection H as <-.
    destruct n as [| |a o ch]; auto. destruct (Nat.eqb_spec o op); subst; auto.
  Qed.

  Lemma set_index_inv {A} (l : list A) p x l' : set_index l p x = Ok l' -> l' = upd l p x /\ p < List.length l.
  Proof. unfold set_index. destruct (Nat.ltb_spec p (List.length l)); [|discriminate]. intros E. injection E as <-. auto. Qed.

  Lemma append_at cs v k cs' : append_const F cs v = Some (k, cs') -> k = List.length cs /\ cs' = cs ++ [v] /\ at' cs' k = v.
  Proof.
    intros H. apply (append_const_some 0 0 (fun _ _ => true)) in H as (-> & -> & _). split; auto. split; auto. unfold at_. rewrite app_nth2, Nat.sub_diag by lia. reflexivity.
  Qed.

  Ltac ok_bind H :=
    match type of H with
    | bind ?m ?k = Ok _ =>
        let x := fresh "x" in let E := fresh "Eb" in
        destruct m as [x| |] eqn:E; try discriminate H; cbn [bind] in H
    end.

  Lemma opt_is_true o n : opt_is o n = true -> o = Some n.
  Proof. destruct o; cbn; [|discriminate]. intros H. apply Nat.eqb_eq in H. congruence. Qed.

  (** Meaning of the node's operator in the [+]/[*] case. *)
  Lemma addmul_val is_add id ar cs ch op children r c0 c1 tl t0 t1 F0 F1 :
    children = c0 :: c1 :: tl ->
    nth_error ar id = Some (AOp 2 op children) ->
    combine_addmul F is_add id ar cs ch 2 op children = Ok r ->
    (forall x y, oeval O 2 op [x; y] = if is_add then fadd F x y else fmul F x y) ->
    rep ar c0 t0 F0 -> rep ar c1 t1 F1 -> NoDup (id :: F0 ++ F1) ->
    in_range (List.length cs) (TOp op [t0; t1]) -> sub_binary (TOp op [t0; t1]) ->
    vpost ar cs (TOp op [t0; t1]) (id :: F0 ++ F1) r.
  Proof.
    intros -> E H Hop R0 R1 Hnd Hrg Hsb.
    assert (Hcomm : forall x y, oeval O 2 op [x; y] = oeval O 2 op [y; x]) by (intros; rewrite !Hop; destruct is_add; ring).
    assert (Hid0 : ~ In id (F0 ++ F1)) by (inversion Hnd; auto).
    assert (Hnd' : NoDup (F0 ++ F1)) by (inversion Hnd; auto).
    apply in_range_op in Hrg. inversion Hrg as [|? ? Hg0 Hg']; subst. inversion Hg' as [|? ? Hg1 _]; subst.
    unfold combine_addmul in H. unfold index in H at 1 2. cbn [nth_error expect bind] in H.
    ok_bind H. apply a_const_inv in Eb. rename x into lc.
    set (lft := match lc with Some _ => c1 | None => c0 end) in *.
    set (rgt := match lc with Some _ => c0 | None => c1 end) in *.
    set (tl' := match lc with Some _ => t1 | None => t0 end).
    set (tr' := match lc with Some _ => t0 | None => t1 end).
    set (Fl := match lc with Some _ => F1 | None => F0 end).
    set (Fr := match lc with Some _ => F0 | None => F1 end).
    set (ch1 := match lc with Some _ => true | None => ch end).
    assert (Et : (match lc with Some _ => (c1, c0, true) | None => (c0, c1, ch) end) = (lft, rgt, ch1)) by (subst lft rgt ch1; destruct lc; reflexivity).
    rewrite Et in H. clear Et.
    assert (Rl : rep ar lft tl' Fl) by (subst lft tl' Fl; destruct lc; auto).
    assert (Rr : rep ar rgt tr' Fr) by (subst rgt tr' Fr; destruct lc; auto).
    assert (Hin : forall p, In p (Fl ++ Fr) <-> In p (F0 ++ F1)).
    { intros p. rewrite !in_app_iff. subst Fl Fr; destruct lc; tauto. }
    assert (Hnd2 : NoDup (Fl ++ Fr)).
    { apply nodup_app in Hnd' as (N0 & N1 & Nd). apply nodup_app. subst Fl Fr; destruct lc; repeat split; auto. intros x H1 H2. exact (Nd x H2 H1). }
    assert (Hval : forall var, oeval O 2 op [teval O var (at' cs) tl'; teval O var (at' cs) tr'] = oeval O 2 op [teval O var (at' cs) t0; teval O var (at' cs) t1]).
    { intros var. subst tl' tr'; destruct lc; auto. }
    assert (Hgl : in_range (List.length cs) tl' /\ in_range (List.length cs) tr') by (subst tl' tr'; destruct lc; auto).
    assert (Hsl : sub_binary tl' /\ sub_binary tr').
    { assert (sub_binary t0) by (eapply sub_binary_child; [exact Hsb|left; auto]). assert (sub_binary t1) by (eapply sub_binary_child; [exact Hsb|right; left; auto]).
      subst tl' tr'; destruct lc; auto. }
    clearbody lft rgt tl' tr' Fl Fr ch1. clear Eb lc.
    (* keeping the node *)
    assert (Hkeep : forall r', (let! ar' := put2 ar id 2 op (c0 :: c1 :: tl) lft rgt in Ok (id, ar', cs, ch1)) = Ok r' ->
                    vpost ar cs (TOp op [t0; t1]) (id :: F0 ++ F1) r').
    { intros r' Hk. destruct (put2 ar id 2 op (c0 :: c1 :: tl) lft rgt) as [ar'| |] eqn:Ep; try discriminate.
      injection Hk as <-. apply put2_inv in Ep as (nch & Ef & -> & Hlen). unfold vpost.
      exists (TOp op [tl'; tr']), (id :: Fl ++ Fr), []. rewrite app_nil_r.
      split. { eapply rep_op2; eauto; [now apply nth_error_upd_same| |]; apply rep_upd; auto; intros Hx; apply Hid0, Hin, in_or_app; auto. }
      split. { constructor; auto. rewrite Hin. auto. }
      split. { intros p [<-|Hp]; [left; auto|right; now apply Hin]. }
      split. { intros p Hp. apply nth_error_upd_other. intros ->. apply Hp. left; auto. }
      split; auto. split. { apply in_range_op. repeat constructor; tauto. }
      split. { apply sub_binary_op; [auto|]. repeat constructor; tauto. }
      intros var. cbn [teval map List.length]. auto. }
    ok_bind H. apply a_const_inv in Eb. rename x into rc. destruct rc as [ti|]; [|auto].
    ok_bind H. rename x into tv. pose proof (index_at _ _ _ Eb0) as Hti.
    ok_bind H. apply a_op_inv in Eb1. rename x into ob. destruct ob as [[ba bch]|]; [|auto].
    destruct ba as [|[|[|ba]]]; auto.
    ok_bind H. rename x into b0. apply index_ok in Eb2. ok_bind H. rename x into b1. apply index_ok in Eb3.
    assert (Hbch : exists btl, bch = b0 :: b1 :: btl).
    { destruct bch as [|x [|y bch]]; cbn in Eb2, Eb3; try discriminate. injection Eb2 as ->. injection Eb3 as ->. eauto. }
    destruct Hbch as (btl & ->).
    destruct (rep_op_inv2 _ _ _ _ _ _ _ _ Eb1 Rl) as (u0 & u1 & G0 & G1 & -> & -> & S0 & S1).
    destruct (rep_const_inv _ _ _ _ _ Eb Rr) as [-> ->].
    ok_bind H. rename x into k0. apply a_const_inv in Eb4. ok_bind H. rename x into k1. apply a_const_inv in Eb5.
    destruct Hgl as [Hgl Hgr]. apply in_range_op in Hgl. pose proof (Forall_inv Hgl) as Hu0. pose proof (Forall_inv (Forall_inv_tail Hgl)) as Hu1.
    assert (Hs0 : sub_binary u0) by (eapply sub_binary_child; [apply Hsl|left; auto]).
    assert (Hs1 : sub_binary u1) by (eapply sub_binary_child; [apply Hsl|right; left; auto]).
    apply nodup_app in Hnd2 as (N0 & _ & Ndis). pose proof (proj2 (proj1 (NoDup_cons_iff _ _) N0)) as N0'. apply nodup_app in N0' as (M0 & M1 & Mdis).
    (* combining *)
    assert (Hleaf : forall q qi w1 Fw (flip : bool),
      nth_error ar q = Some (AConst qi) ->
      (if flip then b1 = q /\ u1 = TConst qi /\ G1 = [q] /\ w1 = u0 /\ Fw = G0 else b0 = q /\ u0 = TConst qi /\ G0 = [q] /\ w1 = u1 /\ Fw = G1) ->
      forall r', (let! below_v := index cs qi in
         if negb (ffinite F below_v) || negb (ffinite F tv) then let! ar' := put2 ar id 2 op (c0 :: c1 :: tl) lft rgt in Ok (id, ar', cs, ch1)
         else match append_const F cs (if is_add then fadd F below_v tv else fmul F below_v tv) with
              | Some (new_idx, cs') => let! ar' := set_index ar q (AConst new_idx) in Ok (lft, ar', cs', true)
              | None => let! ar' := put2 ar id 2 op (c0 :: c1 :: tl) lft rgt in Ok (id, ar', cs, ch1)
              end) = Ok r' -> vpost ar cs (TOp op [t0; t1]) (id :: F0 ++ F1) r').
    { intros q qi w1 Fw flip Eq Hfl r' Hr. ok_bind Hr. rename x into bv. pose proof (index_at _ _ _ Eb6) as Hqi.
      destruct (negb (ffinite F bv) || negb (ffinite F tv)); [auto|].
      destruct (append_const F cs _) as [[k cs']|] eqn:Eap; [|auto].
      apply append_at in Eap as (-> & -> & Hnew). ok_bind Hr. apply set_index_inv in Eb7 as [-> Hq]. injection Hr as <-.
      unfold vpost. set (nv := if is_add then fadd F bv tv else fmul F bv tv) in *.
      exists (if flip then TOp op [u0; TConst (List.length cs)] else TOp op [TConst (List.length cs); u1]), (lft :: G0 ++ G1), [nv].
      assert (Hlq : lft <> q).
      { intros ->. rewrite Eq in Eb1. discriminate. }
      assert (Elft : nth_error (upd ar q (AConst (List.length cs))) lft = Some (AOp 2 op (b0 :: b1 :: btl))) by (rewrite nth_error_upd_other; auto).
      assert (Eqn : nth_error (upd ar q (AConst (List.length cs))) q = Some (AConst (List.length cs))) by (apply nth_error_upd_same; auto).
      split. { destruct flip; destruct Hfl as (-> & -> & -> & -> & ->).
        - eapply rep_op2; [exact Elft|reflexivity| |now constructor]. apply rep_upd; auto. intros Hx. apply (Mdis q Hx). left; auto.
        - eapply rep_op2; [exact Elft|reflexivity|now constructor|]. apply rep_upd; auto. intros Hx. apply (Mdis q); [left; auto|auto]. }
      split; auto.
      split. { intros p Hp. right. apply Hin. apply in_or_app. left; auto. }
      split. { intros p Hp. apply nth_error_upd_other. intros ->. apply Hp. right. apply Hin. apply in_or_app. left. right.
        apply in_or_app. destruct flip; destruct Hfl as (_ & _ & -> & _); [right|left]; left; auto. }
      split; auto.
      assert (Hgc : in_range (List.length (cs ++ [nv])) (TConst (List.length cs))) by (intros i [<-|[]]; rewrite app_length; cbn; lia).
      split. { destruct flip; apply in_range_op; repeat constructor; auto; (eapply in_range_mono; [|eassumption]; rewrite app_length; lia). }
      split. { destruct flip; (apply sub_binary_op; [auto|]); repeat constructor; auto using sub_binary_const. }
      intros var. change (teval O var (at' cs) (TOp op [t0; t1])) with (oeval O 2 op [teval O var (at' cs) t0; teval O var (at' cs) t1]).
      rewrite <- Hval. cbn [teval map List.length]. rewrite Hti.
      destruct flip; destruct Hfl as (-> & -> & -> & -> & ->); cbn [teval map List.length]; rewrite Hnew, teval_grow by auto; rewrite Hqi; unfold nv; rewrite !Hop;
        destruct is_add; ring. }
    destruct k0 as [i0|].
    - destruct (rep_const_inv _ _ _ _ _ Eb4 S0) as [? ?]. apply (Hleaf b0 i0 u1 G1 false); auto.
    - destruct k1 as [i1|]; [|auto]. destruct (rep_const_inv _ _ _ _ _ Eb5 S1) as [? ?]. apply (Hleaf b1 i1 u0 G0 true); auto.
  Qed.

  Lemma rep_sub_inv ar p a op r0 r1 tl t Fp : nth_error ar p = Some (AOp a op (r0 :: r1 :: tl)) -> rep ar p t Fp ->
    sub_id cfg = Some op -> sub_binary t ->
    exists u0 u1 G0 G1, t = TOp op [u0; u1] /\ Fp = p :: G0 ++ G1 /\ rep ar r0 u0 G0 /\ rep ar r1 u1 G1.
  Proof.
    intros E R Hs Hb. inversion R as [? ? E'|? ? E'|? a' op' ch' ts G E' Hla Rs]; subst; try congruence.
    rewrite E in E'. injection E' as -> <- <-.
    assert (Hl : List.length ts = 2) by (apply (Hb op); auto; constructor).
    rewrite Hl in Rs. cbn [firstn] in Rs. apply reps_cons_inv in Rs as (u0 & ts' & G0 & G1 & -> & -> & R0 & H2).
    apply reps_cons_inv in H2 as (u1 & ts'' & G1' & G2 & -> & -> & R1 & H3). inversion H3; subst. rewrite app_nil_r. do 4 eexists. repeat split; eauto.
  Qed.

  (** After rewriting the leaf [q] to the appended constant and the node's children to [l], [r]. *)
  Lemma vpost_put ar cs t Fp id op children q v l r tl' tr' Fl Fr ar1 ar2 :
    nth_error ar id = Some (AOp 2 op children) ->
    set_index ar q (AConst (List.length cs)) = Ok ar1 -> put2 ar1 id 2 op children l r = Ok ar2 ->
    rep ar1 l tl' Fl -> rep ar1 r tr' Fr -> ~ In id (Fl ++ Fr) -> NoDup (Fl ++ Fr) ->
    incl (id :: Fl ++ Fr) Fp -> In q Fp ->
    in_range (List.length (cs ++ [v])) tl' -> in_range (List.length (cs ++ [v])) tr' -> sub_binary tl' -> sub_binary tr' ->
    (forall var, oeval O 2 op [teval O var (at' (cs ++ [v])) tl'; teval O var (at' (cs ++ [v])) tr'] = teval O var (at' cs) t) ->
    vpost ar cs t Fp (id, ar2, cs ++ [v], true).
  Proof.
    intros E E1 E2 Rl Rr Hid Hnd Hinc Hq Hgl Hgr Hsl Hsr Hv.
    apply set_index_inv in E1 as [-> Hql]. apply put2_inv in E2 as (nch & Ef & -> & Hlen).
    unfold vpost. exists (TOp op [tl'; tr']), (id :: Fl ++ Fr), [v].
    split. { eapply rep_op2; [apply nth_error_upd_same; auto|exact Ef| |]; apply rep_upd; auto; intros Hx; apply Hid, in_or_app; auto. }
    split; [constructor; auto|]. split; auto.
    split. { intros p Hp. rewrite nth_error_upd_other by (intros ->; apply Hp, Hinc; left; auto). apply nth_error_upd_other. intros ->. auto. }
    split; auto. split; [apply in_range_op; repeat constructor; auto|]. split; [apply sub_binary_op; [auto|]; repeat constructor; auto|].
    intros var. cbn [teval map List.length]. apply Hv.
  Qed.

  Lemma in_range_new cs (v : T) : in_range (List.length (cs ++ [v])) (TConst (List.length cs)).
  Proof. intros i [<-|[]]. rewrite app_length; cbn; lia. Qed.

  Lemma sub_val id ar cs op children r c0 c1 tl t0 t1 F0 F1 :
    children = c0 :: c1 :: tl ->
    nth_error ar id = Some (AOp 2 op children) -> sub_id cfg = Some op ->
    rep ar c0 t0 F0 -> rep ar c1 t1 F1 -> NoDup (id :: F0 ++ F1) ->
    in_range (List.length cs) (TOp op [t0; t1]) -> sub_binary (TOp op [t0; t1]) ->
    (combine_sub_left F id ar cs 2 op children c0 c1 = Ok (Some r) \/ combine_sub_right F id ar cs 2 op children c0 c1 = Ok (Some r)) ->
    vpost ar cs (TOp op [t0; t1]) (id :: F0 ++ F1) r.
  Proof.
    intros -> E Hop R0 R1 Hnd Hrg Hsb H.
    pose proof (Hsub op) as Hev. 
    pose proof (proj1 (proj1 (NoDup_cons_iff _ _) Hnd)) as Hid. pose proof (proj2 (proj1 (NoDup_cons_iff _ _) Hnd)) as Hnd'.
    apply nodup_app in Hnd' as (N0 & N1 & Nd).
    apply in_range_op in Hrg. pose proof (Forall_inv Hrg) as Hg0. pose proof (Forall_inv (Forall_inv_tail Hrg)) as Hg1.
    assert (Hs0 : sub_binary t0) by (eapply sub_binary_child; [exact Hsb|left; auto]).
    assert (Hs1 : sub_binary t1) by (eapply sub_binary_child; [exact Hsb|right; left; auto]).
    assert (Hmono : forall v t, in_range (List.length cs) t -> in_range (List.length (cs ++ [v])) t).
    { intros v t. apply in_range_mono. rewrite app_length; lia. }
    destruct H as [H|H].
    - unfold combine_sub_left in H. ok_bind H. apply a_const_inv in Eb. destruct x as [ai|]; [|discriminate].
      ok_bind H. apply a_op_inv in Eb0. destruct x as [[ra rch]|]; [|discriminate].
      ok_bind H. rename x into r0. apply index_ok in Eb1. ok_bind H. rename x into r1. apply index_ok in Eb2.
      assert (Hrch : exists rtl, rch = r0 :: r1 :: rtl).
      { destruct rch as [|x [|y rch]]; cbn in Eb1, Eb2; try discriminate. injection Eb1 as ->. injection Eb2 as ->. eauto. }
      destruct Hrch as (rtl & ->).
      destruct (rep_sub_inv _ _ _ _ _ _ _ _ _ Eb0 R1 Hop Hs1) as (u0 & u1 & G0 & G1 & -> & -> & Q0 & Q1).
      destruct (rep_const_inv _ _ _ _ _ Eb R0) as [-> ->].
      ok_bind H. rename x into av. pose proof (index_at _ _ _ Eb3) as Hav.
      apply in_range_op in Hg1. pose proof (Forall_inv Hg1) as Hu0. pose proof (Forall_inv (Forall_inv_tail Hg1)) as Hu1.
      assert (Hsu0 : sub_binary u0) by (eapply sub_binary_child; [exact Hs1|left; auto]).
      assert (Hsu1 : sub_binary u1) by (eapply sub_binary_child; [exact Hs1|right; left; auto]).
      pose proof (proj1 (proj1 (NoDup_cons_iff _ _) N1)) as Hc1. pose proof (proj2 (proj1 (NoDup_cons_iff _ _) N1)) as N1'.
      apply nodup_app in N1' as (M0 & M1 & Md).
      ok_bind H. apply a_const_inv in Eb4. destruct x as [bi|].
      + destruct (rep_const_inv _ _ _ _ _ Eb4 Q0) as [-> ->].
        ok_bind H. rename x into bv. pose proof (index_at _ _ _ Eb5) as Hbv.
        destruct (ffinite F av && ffinite F bv); [|discriminate].
        destruct (append_const F cs _) as [[k cs']|] eqn:Eap; [|discriminate]. apply append_at in Eap as (-> & -> & Hnew).
        ok_bind H. rename x into ar1. rename Eb6 into Es. ok_bind H. rename x into ar2. rename Eb6 into Ep. injection H as <-.
        pose proof (set_index_inv _ _ _ _ Es) as [Hu Hl].
        eapply (vpost_put _ _ _ _ _ op _ r0 _ r1 r0 u1 (TConst (List.length cs)) G1 [r0]); eauto.
        * rewrite Hu. apply rep_upd; auto. intros Hx. apply (Md r0); [left; auto|auto].
        * rewrite Hu. constructor. apply nth_error_upd_same; auto.
        * intros Hx. apply Hid. right. apply in_app_or in Hx as [Hx|[<-|[]]]; right; apply in_or_app; [right|left]; auto. left; auto.
        * apply nodup_app. split; auto. split; [repeat constructor; auto|]. intros x Hx [<-|[]]. apply (Md r0); [left; auto|auto].
        * intros p [<-|Hp]; [left; auto|]. right. right. right. apply in_app_or in Hp as [Hp|[<-|[]]]; apply in_or_app; [right|left]; auto. left; auto.
        * right. right. right. left. auto.
        * apply in_range_new.
        * apply sub_binary_const.
        * intros var. cbn [teval map List.length]. rewrite Hnew, teval_grow by auto. rewrite !Hev by auto. rewrite Hav, Hbv. ring.
      + ok_bind H. apply a_const_inv in Eb5. destruct x as [bi|]; [|discriminate].
        destruct (rep_const_inv _ _ _ _ _ Eb5 Q1) as [-> ->].
        ok_bind H. rename x into bv. pose proof (index_at _ _ _ Eb6) as Hbv.
        destruct (ffinite F av && ffinite F bv); [|discriminate].
        destruct (append_const F cs _) as [[k cs']|] eqn:Eap; [|discriminate]. apply append_at in Eap as (-> & -> & Hnew).
        ok_bind H. rename x into ar1. rename Eb7 into Es. ok_bind H. rename x into ar2. rename Eb7 into Ep. injection H as <-.
        pose proof (set_index_inv _ _ _ _ Es) as [Hu Hl].
        eapply (vpost_put _ _ _ _ _ op _ c0 _ c0 r0 (TConst (List.length cs)) u0 [c0] G0); eauto.
        * rewrite Hu. constructor. apply nth_error_upd_same; auto.
        * rewrite Hu. apply rep_upd; auto. intros Hx. apply (Nd c0); [left; auto|]. right. apply in_or_app; auto.
        * intros Hx. apply Hid. cbn in Hx |- *. destruct Hx as [->|Hx]; auto. right. right. apply in_or_app; auto.
        * cbn. constructor; auto. intros Hx. apply (Nd c0); [left; auto|]. right. apply in_or_app; auto.
        * intros p [<-|[<-|Hp]]; cbn; auto. right. right. right. apply in_or_app; auto.
        * right. left. auto.
        * apply in_range_new.
        * apply sub_binary_const.
        * intros var. cbn [teval map List.length]. rewrite Hnew, teval_grow by auto. rewrite !Hev by auto. rewrite Hav, Hbv. ring.
    - unfold combine_sub_right in H. ok_bind H. apply a_const_inv in Eb. destruct x as [bi|]; [|discriminate].
      ok_bind H. apply a_op_inv in Eb0. destruct x as [[la lch]|]; [|discriminate].
      ok_bind H. rename x into l0. apply index_ok in Eb1. ok_bind H. rename x into l1. apply index_ok in Eb2.
      assert (Hlch : exists ltl, lch = l0 :: l1 :: ltl).
      { destruct lch as [|x [|y lch]]; cbn in Eb1, Eb2; try discriminate. injection Eb1 as ->. injection Eb2 as ->. eauto. }
      destruct Hlch as (ltl & ->).
      destruct (rep_sub_inv _ _ _ _ _ _ _ _ _ Eb0 R0 Hop Hs0) as (u0 & u1 & G0 & G1 & -> & -> & Q0 & Q1).
      destruct (rep_const_inv _ _ _ _ _ Eb R1) as [-> ->].
      ok_bind H. rename x into bv. pose proof (index_at _ _ _ Eb3) as Hbv.
      apply in_range_op in Hg0. pose proof (Forall_inv Hg0) as Hu0. pose proof (Forall_inv (Forall_inv_tail Hg0)) as Hu1.
      assert (Hsu0 : sub_binary u0) by (eapply sub_binary_child; [exact Hs0|left; auto]).
      assert (Hsu1 : sub_binary u1) by (eapply sub_binary_child; [exact Hs0|right; left; auto]).
      pose proof (proj1 (proj1 (NoDup_cons_iff _ _) N0)) as Hc0. pose proof (proj2 (proj1 (NoDup_cons_iff _ _) N0)) as N0'.
      pose proof N0' as Nboth. apply nodup_app in N0' as (M0 & M1 & Md).
      ok_bind H. apply a_const_inv in Eb4. destruct x as [ai|].
      + destruct (rep_const_inv _ _ _ _ _ Eb4 Q0) as [-> ->].
        ok_bind H. rename x into av. pose proof (index_at _ _ _ Eb5) as Hav.
        destruct (ffinite F av && ffinite F bv); [|discriminate].
        destruct (append_const F cs _) as [[k cs']|] eqn:Eap; [|discriminate]. apply append_at in Eap as (-> & -> & Hnew).
        ok_bind H. rename x into ar1. rename Eb6 into Es. ok_bind H. rename x into ar2. rename Eb6 into Ep. injection H as <-.
        pose proof (set_index_inv _ _ _ _ Es) as [Hu Hl].
        eapply (vpost_put _ _ _ _ _ op _ l0 _ l0 l1 (TConst (List.length cs)) u1 [l0] G1); eauto.
        * rewrite Hu. constructor. apply nth_error_upd_same; auto.
        * rewrite Hu. apply rep_upd; auto. intros Hx. apply (Md l0); [left; auto|auto].
        * intros Hx. apply Hid. apply in_or_app. left. right. auto.
        * intros p [<-|Hp]; [left; auto|]. right. apply in_or_app. left. right. auto.
        * right. apply in_or_app. left. right. left. auto.
        * apply in_range_new.
        * apply sub_binary_const.
        * intros var. cbn [teval map List.length]. rewrite Hnew, teval_grow by auto. rewrite !Hev by auto. rewrite Hav, Hbv. ring.
      + ok_bind H. apply a_const_inv in Eb5. destruct x as [ai|]; [|discriminate].
        destruct (rep_const_inv _ _ _ _ _ Eb5 Q1) as [-> ->].
        ok_bind H. rename x into av. pose proof (index_at _ _ _ Eb6) as Hav.
        destruct (ffinite F av && ffinite F bv); [|discriminate].
        destruct (append_const F cs _) as [[k cs']|] eqn:Eap; [|discriminate]. apply append_at in Eap as (-> & -> & Hnew).
        ok_bind H. rename x into ar1. rename Eb7 into Es. ok_bind H. rename x into ar2. rename Eb7 into Ep. injection H as <-.
        pose proof (set_index_inv _ _ _ _ Es) as [Hu Hl].
        eapply (vpost_put _ _ _ _ _ op _ l1 _ l0 l1 u0 (TConst (List.length cs)) G0 [l1]); eauto.
        * rewrite Hu. apply rep_upd; auto. intros Hx. apply (Md l1); [auto|left; auto].
        * rewrite Hu. constructor. apply nth_error_upd_same; auto.
        * intros Hx. apply Hid. apply in_or_app. left. right. auto.
        * intros p [<-|Hp]; [left; auto|]. right. apply in_or_app. left. right. auto.
        * right. apply in_or_app. left. right. apply in_or_app. right. left. auto.
        * apply in_range_new.
        * apply sub_binary_const.
        * intros var. cbn [teval map List.length]. rewrite Hnew, teval_grow by auto. rewrite !Hev by auto. rewrite Hav, Hbv. ring.
  Qed.

  Lemma vpost_same ar cs t id Fp (ch : bool) : rep ar id t Fp -> NoDup Fp -> in_range (List.length cs) t -> sub_binary t -> vpost ar cs t Fp (id, ar, cs, ch).
  Proof.
    intros R N G S. unfold vpost. exists t, Fp, []. rewrite app_nil_r. repeat (split; [solve [auto using incl_refl]|]). auto.
  Qed.

  Lemma top_val id ar cs ch op children r c0 c1 tl t0 t1 F0 F1 :
    children = c0 :: c1 :: tl ->
    nth_error ar id = Some (AOp 2 op children) ->
    rep ar c0 t0 F0 -> rep ar c1 t1 F1 -> NoDup (id :: F0 ++ F1) ->
    in_range (List.length cs) (TOp op [t0; t1]) -> sub_binary (TOp op [t0; t1]) ->
    combine_top F cfg id ar cs ch 2 op children = Ok r ->
    vpost ar cs (TOp op [t0; t1]) (id :: F0 ++ F1) r.
  Proof.
    intros Hc E R0 R1 Hnd Hrg Hsb H. unfold combine_top in H.
    assert (Hsame : vpost ar cs (TOp op [t0; t1]) (id :: F0 ++ F1) (id, ar, cs, ch)).
    { apply vpost_same; auto. eapply rep_op2; eauto. rewrite Hc. reflexivity. }
    destruct (opt_is (add_id cfg) op) eqn:Ea.
    - apply opt_is_true in Ea. cbn [orb] in H. eapply addmul_val; eauto. intros. apply Hadd; auto.
    - destruct (opt_is (mul_id cfg) op) eqn:Em; cbn [orb] in H.
      + apply opt_is_true in Em. eapply addmul_val; eauto. intros. apply Hmul; auto.
      + destruct (opt_is (sub_id cfg) op) eqn:Es; [|injection H as <-; auto].
        apply opt_is_true in Es. rewrite Hc in H. unfold index in H at 1 2. cbn [nth_error expect bind] in H. rewrite <- Hc in H.
        ok_bind H. destruct x as [r1|].
        * injection H as <-. eapply sub_val; eauto.
        * ok_bind H. destruct x as [r2|]; injection H as <-; [|auto]. eapply sub_val; eauto.
  Qed.

  Lemma vpost_trans ar cs t Fp ar1 cs1 t1 F1 new1 r :
    cs1 = cs ++ new1 -> incl F1 Fp -> (forall p, ~ In p Fp -> nth_error ar1 p = nth_error ar p) ->
    (forall var, teval O var (at' cs1) t1 = teval O var (at' cs) t) ->
    vpost ar1 cs1 t1 F1 r -> vpost ar cs t Fp r.
  Proof.
    intros -> Hi Hs Hv. destruct r as [[[id' ar'] cs'] ch']. unfold vpost. intros (t' & F' & new & R & N & I & S & -> & G & B & V).
    exists t', F', (new1 ++ new). split; auto. split; auto. split; [eapply incl_tran; eauto|].
    split; [intros p Hp; rewrite S, Hs; auto|]. split; [now rewrite app_assoc|]. split; auto. split; auto.
    intros var. rewrite V. apply Hv.
  Qed.

  Lemma combine_val : forall fuel id ar cs ch r, combine_node F cfg fuel id ar cs ch = Ok r ->
    forall t Fp, rep ar id t Fp -> NoDup Fp -> in_range (List.length cs) t -> sub_binary t -> vpost ar cs t Fp r.
  Proof.
    induction fuel as [|fuel IH]; intros id ar cs ch r H t Fp R N G B; [discriminate|]. cbn [combine_node] in H.
    ok_bind H. apply index_ok in Eb. destruct x as [v|i|a op children].
    { injection H as <-. now apply vpost_same. }
    { injection H as <-. now apply vpost_same. }
    inversion R as [? ? E'|? ? E'|? a' op' ch' ts G0 E' Hla Rs]; subst id Fp t; try congruence. rename id0 into id. rewrite Eb in E'. injection E' as <- <- <-.
    pose proof (proj1 (proj1 (NoDup_cons_iff _ _) N)) as Hid. pose proof (proj2 (proj1 (NoDup_cons_iff _ _) N)) as N'.
    (* the loop *)
    assert (Hloop : forall todo done ar1 cs1 ch1 ts F1 x,
      foldM (fun '(done, ar, cs, changed) cid =>
                 let! (cid', ar', cs', changed') := combine_node F cfg fuel cid ar cs changed in
                 Ok (done ++ [cid'], ar', cs', changed')) todo (done, ar1, cs1, ch1) = Ok x ->
      reps ar1 todo ts F1 -> NoDup F1 -> Forall (in_range (List.length cs1)) ts -> Forall sub_binary ts ->
      let '(done2, ar2, cs2, ch2) := x in
      exists done' ts' F' new, done2 = done ++ done' /\ reps ar2 done' ts' F' /\ NoDup F' /\ incl F' F1
        /\ (forall p, ~ In p F1 -> nth_error ar2 p = nth_error ar1 p) /\ cs2 = cs1 ++ new
        /\ Forall (in_range (List.length cs2)) ts' /\ Forall sub_binary ts' /\ List.length ts' = List.length ts
        /\ forall var, map (teval O var (at' cs2)) ts' = map (teval O var (at' cs1)) ts).
    { induction todo as [|c todo IHt]; intros done ar1 cs1 ch1 us F1 x Hx Rx Nx Gx Bx; cbn [foldM] in Hx.
      - injection Hx as <-. inversion Rx; subst. exists [], [], [], []. rewrite !app_nil_r. repeat split; auto. intros p Hp; auto.
      - apply reps_cons_inv in Rx as (u & us' & H1 & H2 & -> & -> & Rc & Rt).
        destruct (combine_node F cfg fuel c ar1 cs1 ch1) as [[[[c' ar2] cs2] ch2]| |] eqn:Ec; try discriminate. cbn [bind] in Hx.
        apply nodup_app in Nx as (Nx1 & Nx2 & Nd). pose proof (Forall_inv Gx) as Gu. pose proof (Forall_inv_tail Gx) as Gus.
        pose proof (Forall_inv Bx) as Bu. pose proof (Forall_inv_tail Bx) as Bus.
        destruct (IH _ _ _ _ _ Ec u H1 Rc Nx1 Gu Bu) as (u' & H1' & n1 & Ru & Nu & Iu & Su & -> & Gu' & Bu' & Vu).
        assert (Rt' : reps ar2 todo us' H2).
        { eapply reps_frame; eauto. intros p Hp. apply Su. intros Hp'. exact (Nd p Hp' Hp). }
        assert (Gus' : Forall (in_range (List.length (cs1 ++ n1))) us').
        { eapply Forall_impl; [|exact Gus]. intros w. apply in_range_mono. rewrite app_length; lia. }
        specialize (IHt (done ++ [c']) ar2 (cs1 ++ n1) ch2 us' H2 x Hx Rt' Nx2 Gus' Bus).
        destruct x as [[[done2 ar3] cs3] ch3]. destruct IHt as (done' & ts' & F' & new & -> & R3 & N3 & I3 & S3 & -> & G3 & B3 & L3 & V3).
        exists (c' :: done'), (u' :: ts'), (H1' ++ F'), (n1 ++ new). rewrite <- app_assoc.
        split; auto. split.
        { constructor; auto. eapply rep_frame; [exact Ru|]. intros p Hp. apply S3. intros Hp'. exact (Nd p (Iu p Hp) Hp'). }
        split. { apply nodup_app. split; auto. split; auto. intros p Hp Hp'. exact (Nd p (Iu p Hp) (I3 p Hp')). }
        split. { intros p Hp. apply in_app_or in Hp as [Hp|Hp]; apply in_or_app; auto. }
        split. { intros p Hp. rewrite S3, Su; auto; intros Hx'; apply Hp, in_or_app; auto. }
        split; [now rewrite app_assoc|].
        split. { constructor; auto. eapply in_range_mono; [|exact Gu']. rewrite !app_length; lia. }
        split; auto. split; [cbn; auto|].
        intros var. cbn [map]. rewrite V3. f_equal.
        + rewrite <- Vu. apply teval_grow. auto.
        + apply map_ext_in. intros w Hw. apply teval_grow. rewrite Forall_forall in Gus. auto. }
    destruct (foldM _ _ _) as [[[[done ar2] cs2] ch2]| |] eqn:Ef in H; try discriminate. cbn [bind] in H.
    apply in_range_op in G.
    assert (Bts : Forall sub_binary ts) by (apply Forall_forall; intros w Hw; eapply sub_binary_child; eauto).
    destruct (Hloop _ _ _ _ _ _ _ _ Ef Rs N' G Bts) as (done' & ts' & F' & new & Ed & R2 & N2 & I2 & S2 & -> & G2 & B2 & L2 & V2).
    cbn [app] in Ed. subst done.
    assert (Hdl : List.length done' = List.length (firstn a children)) by (rewrite <- (reps_len _ _ _ _ R2), <- (reps_len _ _ _ _ Rs); auto).
    destruct (set_index ar2 id (AOp a op (done' ++ skipn a children))) as [ar3| |] eqn:Es; try discriminate. cbn [bind] in H.
    apply set_index_inv in Es as [-> Hlen].
    set (ch' := done' ++ skipn a children) in *.
    assert (Hfk : firstn a ch' = done').
    { unfold ch'. destruct (Nat.le_gt_cases a (List.length children)) as [Hle|Hgt].
      - rewrite firstn_length, Nat.min_l in Hdl by auto. rewrite firstn_app, firstn_all2 by lia. replace (a - List.length done') with 0 by lia. cbn. apply app_nil_r.
      - rewrite skipn_all2 by lia. rewrite app_nil_r. apply firstn_all2. rewrite Hdl, firstn_length. lia. }
    assert (E3 : nth_error (upd ar2 id (AOp a op ch')) id = Some (AOp a op ch')) by (apply nth_error_upd_same; auto).
    assert (Hid2 : ~ In id F') by (intros Hx; apply Hid; auto).
    assert (R3 : reps (upd ar2 id (AOp a op ch')) done' ts' F').
    { eapply reps_frame; eauto. intros p Hp. apply nth_error_upd_other. intros ->. auto. }
    assert (B3 : sub_binary (TOp op ts')).
    { apply sub_binary_op; auto. intros Hs. rewrite L2. apply (B op ts); auto. constructor. }
    assert (Hfin : forall r', vpost (upd ar2 id (AOp a op ch')) (cs ++ new) (TOp op ts') (id :: F') r' -> vpost ar cs (TOp op ts) (id :: G0) r').
    { intros r'. eapply vpost_trans; [reflexivity| | |].
      - intros p [<-|Hp]; [left; auto|right; auto].
      - intros p Hp. rewrite nth_error_upd_other by (intros ->; apply Hp; left; auto). apply S2. intros Hx. apply Hp. right; auto.
      - intros var. cbn [teval]. rewrite L2, V2. reflexivity. }
    destruct (Nat.eqb_spec a 2) as [->|Hne]; cbn [negb] in H.
    - assert (Hd2 : exists c0 c1, done' = [c0; c1]).
      { pose proof (reps_len _ _ _ _ R2) as Hl. rewrite L2, Hla in Hl. destruct done' as [|c0 [|c1 [|? ?]]]; try discriminate Hl. eauto. }
      destruct Hd2 as (c0 & c1 & ->). pose proof R3 as R4. apply reps_cons_inv in R4 as (u0 & us & H0 & H1 & -> & -> & Q0 & R4).
      apply reps_cons_inv in R4 as (u1 & us' & H1' & H2 & -> & -> & Q1 & R4). inversion R4; subst. rewrite app_nil_r in *.
      apply Hfin. eapply top_val; [|exact E3|exact Q0|exact Q1| | |exact B3|exact H].
      + reflexivity.
      + constructor; auto.
      + now apply in_range_op.
    - injection H as <-. apply Hfin. apply vpost_same; auto.
      + econstructor; [exact E3|now rewrite L2|]. now rewrite Hfk.
      + constructor; auto.
      + now apply in_range_op.
  Qed.
End Value.
