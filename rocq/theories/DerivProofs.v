(** Derivative kernels and executors follow the chain rule. *)
From Verif Require Import Base BaseLemmas Node Tree NodeProofs Compile CompileProofs Eval EvalProofs Deriv DerivSpec Machine.

Definition deadv {T} (F : FloatOps T) (d : srcref T) : bool :=
  match d with RConst c => fis_zero F c | RSlice _ => false end.
Definition shape {T} (v d : srcref T) : Prop :=
  match d with RSlice _ => is_const_ref v = false | RConst _ => True end.

Section Kernels.
  Context {T : Type} (F : FloatOps T).

  Lemma eval_unary_spec n x g (f : T -> T) :
    vrep n x g -> eval_unary_loop n x f = Ok (tab n (fun r => f (g r))).
  Proof.
    destruct x as [s|c]; cbn; intros H.
    - subst s. now rewrite tab_length, Nat.eqb_refl, map_tab.
    - rewrite <- tab_const. f_equal. apply tab_ext. intros; now rewrite H.
  Qed.

  Lemma eval_binary_spec n x y g1 g2 (f : T -> T -> T) :
    vrep n x g1 -> vrep n y g2 -> eval_binary_loop n x y f = Ok (tab n (fun r => f (g1 r) (g2 r))).
  Proof.
    destruct x as [s|c], y as [s2|c2]; cbn; intros H1 H2; subst.
    - unfold zip_eq. rewrite !tab_length, Nat.eqb_refl. cbn [bind].
      now rewrite combine_tab, tab_length, Nat.eqb_refl, map_tab.
    - rewrite tab_length, Nat.eqb_refl, map_tab. f_equal. apply tab_ext. intros; now rewrite H2.
    - rewrite tab_length, Nat.eqb_refl, map_tab. f_equal. apply tab_ext. intros; now rewrite H1.
    - rewrite <- tab_const. f_equal. apply tab_ext. intros; now rewrite H1, H2.
  Qed.

  Lemma grad_unary_spec n x dx g dg p :
    vrep n x g -> vrep n dx dg -> shape x dx ->
    grad_unary_loop F n x dx p
    = Ok (tab n (fun r => if deadv F dx then fzero F else fmul F (p [g r] 0) (dg r))).
  Proof.
    intros H1 H2 Hs. unfold grad_unary_loop. fold (deadv F dx).
    destruct (deadv F dx) eqn:Ed.
    - now rewrite tab_const.
    - destruct x as [s|c], dx as [ds|dc]; cbn in *; subst; try discriminate.
      + rewrite !tab_length, Nat.eqb_refl. cbn. now rewrite combine_tab, map_tab.
      + rewrite tab_length, Nat.eqb_refl, map_tab. f_equal. apply tab_ext. intros; now rewrite H2.
      + rewrite <- tab_const. f_equal. apply tab_ext. intros; now rewrite H1, H2.
  Qed.

  Lemma grad_binary_spec n x y dx dy g1 g2 d1 d2 p :
    vrep n x g1 -> vrep n y g2 -> vrep n dx d1 -> vrep n dy d2 -> shape x dx -> shape y dy ->
    grad_binary_loop F n x y dx dy p
    = Ok (tab n (fun r => bin_body F p (g1 r) (g2 r) (d1 r) (d2 r))).
  Proof.
    intros H1 H2 H3 H4 S1 S2. unfold grad_binary_loop.
    destruct x as [xs|xc], y as [ys|yc], dx as [dxs|dxc], dy as [dys|dyc]; cbn in *; subst; try discriminate;
      unfold zip_eq; repeat (rewrite ?tab_length, ?Nat.eqb_refl, ?combine_tab; cbn [bind]);
      rewrite ?map_tab, <- ?tab_const; f_equal; apply tab_ext; intros r _; cbn;
      rewrite ?H1, ?H2, ?H3, ?H4; reflexivity.
  Qed.

  Lemma mapM_view_get n views gs row :
    Forall2 (vrep n) views gs -> row < n ->
    mapM (fun v => view_get v row) views = Ok (map (fun g : nat -> T => g row) gs).
  Proof.
    intros HV Hn. induction HV as [|v g vs gs Hv _ IH]; cbn; auto.
    assert (view_get v row = Ok (g row)) as ->.
    { destruct v as [s|c]; cbn in Hv |- *; [|now rewrite Hv]. subst s. unfold index.
      rewrite tab_nth by lia. reflexivity. }
    cbn. rewrite IH. reflexivity.
  Qed.

  Lemma diff_rows_loop_spec (f : list T -> T) p o n views dviews gs dgs :
    Forall2 (vrep n) views gs -> Forall2 (vrep n) dviews dgs ->
    forall k row accv accd complete, row + k = n ->
    let h r := f (map (fun g : nat -> T => g r) gs) in
    let hd r := dot_partials F p (map (fun g : nat -> T => g r) gs) (map (fun g : nat -> T => g r) dgs) in
    let vs := map h (seq row k) in
    let ds := map hd (seq row k) in
    let fin := forallb (ffinite F) vs && forallb (ffinite F) ds in
    diff_rows_loop F f p views dviews o row k accv accd complete
    = if kstop o fin then Ok None
      else Ok (Some (accv ++ vs, accd ++ ds, complete && kflag o fin)).
  Proof.
    intros HV HD. induction k as [|k IH]; intros row accv accd complete Hn h hd vs ds fin.
    - cbn. unfold kstop, kflag. cbn. rewrite andb_false_r, orb_true_r, andb_true_r, !app_nil_r. reflexivity.
    - cbn [diff_rows_loop].
      rewrite (mapM_view_get n _ _ _ HV), (mapM_view_get n _ _ _ HD) by lia. cbn [bind].
      fold (h row). fold (hd row).
      subst fin vs ds. cbn [seq map forallb].
      unfold maybe_mark_nonfinite, kstop, kflag in *.
      destruct (check_finite o) eqn:Ec; cbn [andb negb orb] in *.
      + destruct (ffinite F (h row)) eqn:Ef; cbn [andb negb].
        * destruct (ffinite F (hd row)) eqn:Eg; cbn [andb negb].
          -- rewrite IH by lia. cbn zeta. rewrite <- !app_assoc. reflexivity.
          -- destruct (early_exit o) eqn:Ee; cbn [andb negb].
             ++ rewrite andb_false_r. reflexivity.
             ++ rewrite IH by lia. cbn zeta. rewrite <- !app_assoc. cbn [app andb].
                now rewrite !andb_false_r.
        * destruct (early_exit o) eqn:Ee; cbn [andb negb]; [reflexivity|].
          destruct (ffinite F (hd row)); cbn [andb negb];
            rewrite IH by lia; cbn zeta; rewrite <- !app_assoc; cbn [app andb]; now rewrite !andb_false_r.
      + rewrite IH by lia. cbn zeta. cbn [andb]. rewrite <- !app_assoc. reflexivity.
  Qed.

  Lemma dot_partials_chain p vals ds : dot_partials F p vals ds = chain_sum F (p vals) ds.
  Proof. reflexivity. Qed.

  Lemma finish_diff_spec o n h hd complete fin :
    (complete = true /\ fin = forallb (ffinite F) (tab n h))
    \/ (kstop o fin = false /\ complete = kflag o fin
        /\ exists b, fin = forallb (ffinite F) (tab n h) && b) ->
    exists ov od ok, finish_diff F o (tab n h) (tab n hd) complete = (ov, od, ok)
      /\ List.length ov = n /\ List.length od = n
      /\ (kstop o fin = true -> ok = false)
      /\ (kstop o fin = false -> ov = tab n h /\ od = tab n hd /\ ok = kflag o fin).
  Proof.
    intros H. unfold finish_diff. set (A := forallb (ffinite F) (tab n h)) in *.
    unfold kstop, kflag in *.
    destruct (check_finite o); cbn [andb negb orb] in *.
    - destruct A eqn:EA; cbn [negb andb].
      + do 3 eexists; split; [reflexivity|]. rewrite !tab_length. split; [auto|]. split; [auto|].
        rewrite andb_true_r. split.
        * intros Hk. exfalso. destruct H as [[-> ->]|(Hk' & _ & _)]; [|congruence].
          rewrite andb_false_r in Hk. discriminate.
        * intros _. split; auto. split; auto. destruct H as [[-> ->]|(_ & -> & _)]; auto.
      + destruct (early_exit o) eqn:Ee; cbn [andb] in *.
        * do 3 eexists; split; [reflexivity|]. rewrite !fill_length, !tab_length.
          split; [auto|]. split; [auto|]. split; [auto|].
          intros Hk; exfalso; destruct H as [[-> ->]|(Hk' & _ & b & ->)]; cbn in *; discriminate.
        * do 3 eexists; split; [reflexivity|]. rewrite !tab_length. split; [auto|]. split; [auto|].
          split; [discriminate|]. intros _. split; auto. split; auto.
          rewrite andb_false_r. destruct H as [[-> ->]|(_ & _ & b & ->)]; auto.
    - do 3 eexists; split; [reflexivity|]. rewrite !tab_length. split; [auto|]. split; [auto|].
      split; [discriminate|]. intros _. split; auto. split; auto.
      destruct H as [[-> ->]|(_ & -> & _)]; auto.
  Qed.

  (** What the derivative kernel checks. *)
  Definition dkfin (n A : nat) (h hd : nat -> T) : bool :=
    forallb (ffinite F) (tab n h) && (if A <=? 2 then true else forallb (ffinite F) (tab n hd)).

  Lemma diff_nary_spec A (f : list T -> T) p o n views dviews gs dgs :
    Forall2 (vrep n) views gs -> Forall2 (vrep n) dviews dgs -> Forall2 shape views dviews ->
    List.length views = A -> 1 <= A ->
    let h r := f (map (fun g : nat -> T => g r) gs) in
    let hd r := der_step F false (map (deadv F) dviews) (p (map (fun g : nat -> T => g r) gs)) (map (fun g : nat -> T => g r) dgs) in
    let fin := dkfin n A h hd in
    exists ov od ok, diff_nary F A f p n views dviews o = Ok (ov, od, ok)
      /\ List.length ov = n /\ List.length od = n
      /\ (kstop o fin = true -> ok = false)
      /\ (kstop o fin = false -> ov = tab n h /\ od = tab n hd /\ ok = kflag o fin).
  Proof.
    intros HV HD HS HA HA1 h hd fin. unfold diff_nary. rewrite HA, Nat.eqb_refl. cbn [assert_ bind].
    rewrite <- (Forall2_len _ _ _ HS), HA, Nat.eqb_refl. cbn [assert_ bind].
    destruct (Nat.eqb_spec A 1) as [E1|E1]; [|destruct (Nat.eqb_spec A 2) as [E2|E2]].
    - inversion HV as [|v g vs gs' Hv HV']; subst; cbn in *; try discriminate.
      inversion HV'; subst; cbn in *; try discriminate.
      inversion HS as [|? d ? ds' Hs HS']; subst. inversion HS'; subst.
      inversion HD as [|? dg ? dgs' Hd HD']; subst. inversion HD'; subst.
      cbn [index nth_error expect bind].
      rewrite (eval_unary_spec n v g) by auto. cbn [bind].
      rewrite (grad_unary_spec n v d g dg) by auto. cbn [bind].
      destruct (finish_diff_spec o n h hd true fin) as (ov & od & ok & E & R).
      { left. split; auto. subst fin. unfold dkfin. cbn. now rewrite andb_true_r. }
      exists ov, od, ok. split; [|exact R]. rewrite <- E. f_equal. f_equal.
      apply tab_ext. intros r _. unfold hd. cbn. now rewrite andb_true_r.
    - inversion HV as [|v g vs gs' Hv HV']; subst; cbn in *; try discriminate.
      inversion HV' as [|v2 g2 vs2 gs2 Hv2 HV2]; subst; cbn in *; try discriminate.
      inversion HV2; subst; cbn in *; try discriminate.
      inversion HS as [|? d ? ds' Hs HS']; subst. inversion HS' as [|? d2 ? ds2 Hs2 HS2]; subst. inversion HS2; subst.
      inversion HD as [|? dg ? dgs' Hd HD']; subst. inversion HD' as [|? dg2 ? dgs2 Hd2 HD2]; subst. inversion HD2; subst.
      cbn [index nth_error expect bind].
      rewrite (eval_binary_spec n v v2 g g2) by auto. cbn [bind].
      rewrite (grad_binary_spec n v v2 d d2 g g2 dg dg2) by auto. cbn [bind].
      destruct (finish_diff_spec o n h hd true fin) as (ov & od & ok & E & R).
      { left. split; auto. subst fin. unfold dkfin. cbn. now rewrite andb_true_r. }
      exists ov, od, ok. split; [|exact R]. rewrite <- E. reflexivity.
    - rewrite (diff_rows_loop_spec f p o n views dviews gs dgs HV HD n 0 [] [] true eq_refl).
      assert (Hhd : forall r, hd r = dot_partials F p (map (fun g : nat -> T => g r) gs) (map (fun g : nat -> T => g r) dgs)).
      { intros r. unfold hd, der_step. rewrite dot_partials_chain.
        assert (List.length (map (fun g : nat -> T => g r) dgs) = A).
        { rewrite map_length, <- (Forall2_len _ _ _ HD), <- (Forall2_len _ _ _ HS); auto. }
        destruct (map (fun g : nat -> T => g r) dgs) as [|a [|b [|c l]]]; auto; cbn in *; lia. }
      fold h. change (map h (seq 0 n)) with (tab n h).
      replace (map (fun r => dot_partials F p (map (fun g : nat -> T => g r) gs) (map (fun g : nat -> T => g r) dgs)) (seq 0 n)) with (tab n hd)
        by (apply tab_ext; auto).
      assert (Hfin : fin = forallb (ffinite F) (tab n h) && forallb (ffinite F) (tab n hd)).
      { subst fin. unfold dkfin. destruct (Nat.leb_spec A 2); [lia|]. reflexivity. }
      rewrite <- Hfin.
      destruct (kstop o fin) eqn:Ek; cbn [bind].
      + do 3 eexists; split; [reflexivity|]. rewrite !fill_length. repeat split; auto; discriminate.
      + cbn [app andb].
        destruct (finish_diff_spec o n h hd (kflag o fin) fin) as (ov & od & ok & E & R).
        { right. split; auto. split; auto. eauto. }
        exists ov, od, ok. rewrite Ek in R. split; [f_equal; exact E|exact R].
  Qed.

  (** Gradient buffers, direction-major. *)
  Definition gflat (nd n : nat) (G : nat -> nat -> T) : list T :=
    List.concat (map (fun dir => tab n (G dir)) (seq 0 nd)).

  Lemma gflat_gen n (G : nat -> nat -> T) nd : forall k,
    List.length (List.concat (map (fun dir => tab n (G dir)) (seq k nd))) = nd * n
    /\ forall d r, d < nd -> r < n ->
       nth_error (List.concat (map (fun dir => tab n (G dir)) (seq k nd))) (d * n + r) = Some (G (k + d) r).
  Proof.
    induction nd as [|nd IH]; intros k; cbn [seq map List.concat]; [split; [auto|lia]|].
    destruct (IH (S k)) as [IH1 IH2]. rewrite app_length, tab_length, IH1. split; [lia|].
    intros [|d] r Hd Hr.
    - cbn. rewrite nth_error_app1 by (rewrite tab_length; lia). rewrite tab_nth, Nat.add_0_r by auto. auto.
    - rewrite nth_error_app2 by (rewrite tab_length; nia). rewrite tab_length.
      replace (S d * n + r - n) with (d * n + r) by nia. rewrite IH2 by lia. do 2 f_equal. lia.
  Qed.

  Lemma gflat_length nd n G : List.length (gflat nd n G) = nd * n.
  Proof. apply gflat_gen. Qed.

  Lemma gflat_nth nd n (G : nat -> nat -> T) d r : d < nd -> r < n -> nth_error (gflat nd n G) (d * n + r) = Some (G d r).
  Proof. intros. unfold gflat. now rewrite (proj2 (gflat_gen n G nd 0)). Qed.

  Lemma gflat_ext nd n (G H : nat -> nat -> T) : (forall d r, d < nd -> r < n -> G d r = H d r) -> gflat nd n G = gflat nd n H.
  Proof.
    intros E. unfold gflat. f_equal. apply map_ext_in. intros d Hd. apply in_seq in Hd. apply tab_ext.
    intros; apply E; lia.
  Qed.

  Definition grep (nd n : nat) (g : gradref T) (G : nat -> nat -> T) : Prop :=
    match g with
    | GSlice s => s = gflat nd n G
    | GBasis k => forall d r, G d r = if d =? k then fone F else fzero F
    | GZero => forall d r, G d r = fzero F
    end.

  Definition gshape (v : srcref T) (g : gradref T) : Prop :=
    match g with GSlice _ => is_const_ref v = false | _ => True end.

  Definition gdead (g : gradref T) (dir : nat) : bool :=
    match g with
    | GSlice _ => false
    | GBasis k => fis_zero F (if dir =? k then fone F else fzero F)
    | GZero => fis_zero F (fzero F)
    end.

  Lemma grad_dir_view_spec nd n g G dir v :
    grep nd n g G -> gshape v g -> dir < nd ->
    exists d, grad_dir_view F g dir n = Ok d /\ vrep n d (G dir) /\ shape v d /\ deadv F d = gdead g dir.
  Proof.
    intros Hg Hs Hd. destruct g as [s|k|]; cbn in *.
    - subst s. rewrite slice_ok by (rewrite gflat_length; nia). cbn [bind].
      eexists; split; [reflexivity|]. cbn. repeat split; auto.
      apply nth_error_ext. intros i. destruct (Nat.lt_ge_cases i n).
      + rewrite nth_error_firstn, nth_error_skipn, gflat_nth, tab_nth by auto. reflexivity.
      + rewrite !(proj2 (nth_error_None _ _)); auto; [now rewrite tab_length|rewrite firstn_length; lia].
    - eexists; split; [reflexivity|]. cbn. repeat split; auto.
    - eexists; split; [reflexivity|]. cbn. repeat split; auto.
  Qed.

  Lemma grad_at_spec nd n g G dir row :
    grep nd n g G -> dir < nd -> row < n -> grad_at F g dir row n = Ok (G dir row).
  Proof.
    intros Hg Hd Hr. destruct g as [s|k|]; cbn in *.
    - subst s. unfold index. now rewrite gflat_nth.
    - now rewrite Hg.
    - now rewrite Hg.
  Qed.

  Lemma concat_tab nd n (G : nat -> nat -> T) L :
    mapM (fun dir : nat => Ok (tab n (G dir))) (seq 0 nd) = Ok L -> List.concat L = gflat nd n G.
  Proof.
    rewrite (mapM_map _ (fun dir => tab n (G dir))) by auto. intros H. injection H as <-. reflexivity.
  Qed.

  Lemma mapM_ext {A B} (f g : A -> res B) l : (forall a, In a l -> f a = g a) -> mapM f l = mapM g l.
  Proof.
    induction l as [|a l IH]; cbn; intros H; auto. rewrite H by auto. destruct (g a); cbn; auto.
    rewrite IH; auto.
  Qed.

  Definition gkfin (n : nat) (h : nat -> T) : bool := forallb (ffinite F) (tab n h).

  Lemma grad_nary_spec A (f : list T -> T) p o nd n views grads gs Gs :
    Forall2 (vrep n) views gs -> Forall2 (grep nd n) grads Gs -> Forall2 gshape views grads ->
    List.length views = A -> 1 <= A -> 1 <= n ->
    let h r := f (map (fun g : nat -> T => g r) gs) in
    let hd d r := der_step F true (map (fun g => gdead g d) grads) (p (map (fun g : nat -> T => g r) gs)) (map (fun G : nat -> nat -> T => G d r) Gs) in
    let fin := gkfin n h in
    exists ov og ok, grad_nary F A f p nd n views grads o = Ok (ov, og, ok)
      /\ List.length ov = n /\ List.length og = nd * n
      /\ (kstop o fin = true -> ok = false)
      /\ (kstop o fin = false -> ov = tab n h /\ og = gflat nd n hd /\ ok = kflag o fin).
  Proof.
    intros HV HG HS HA HA1 Hn1 h hd fin. unfold grad_nary. rewrite HA, Nat.eqb_refl. cbn [assert_ bind].
    rewrite <- (Forall2_len _ _ _ HS), HA, Nat.eqb_refl. cbn [assert_ bind].
    match goal with |- context [bind ?b _] => set (body := b) end.
    assert (Hbody : exists og, body = Ok (tab n h, og) /\ List.concat og = gflat nd n hd).
    { subst body. destruct (Nat.eqb_spec A 1) as [E1|E1]; [|destruct (Nat.eqb_spec A 2) as [E2|E2]].
      - inversion HV as [|v g vs gs' Hv HV']; subst; cbn in *; try discriminate.
        inversion HV'; subst; cbn in *; try discriminate.
        inversion HS as [|? d ? ds' Hs HS']; subst. inversion HS'; subst.
        inversion HG as [|? dg ? dgs' Hd HD']; subst. inversion HD'; subst.
        cbn [index nth_error expect bind].
        rewrite (eval_unary_spec n v g) by auto. cbn [bind].
        unfold grad_dirs_unary.
        rewrite (mapM_map _ (fun dir => tab n (hd dir))).
        + cbn [bind]. eexists; split; reflexivity.
        + intros dir Hin. apply in_seq in Hin.
          destruct (grad_dir_view_spec nd n d dg dir v Hd Hs) as (dv & -> & Hr & Hsh & Hdead); [lia|].
          cbn [bind]. rewrite (grad_unary_spec n v dv g (dg dir)) by auto. f_equal. apply tab_ext.
          intros r _. unfold hd. cbn. now rewrite andb_true_r, Hdead.
      - inversion HV as [|v g vs gs' Hv HV']; subst; cbn in *; try discriminate.
        inversion HV' as [|v2 g2 vs2 gs2 Hv2 HV2]; subst; cbn in *; try discriminate.
        inversion HV2; subst; cbn in *; try discriminate.
        inversion HS as [|? d ? ds' Hs HS']; subst. inversion HS' as [|? d2 ? ds2 Hs2 HS2]; subst. inversion HS2; subst.
        inversion HG as [|? dg ? dgs' Hd HD']; subst. inversion HD' as [|? dg2 ? dgs2 Hd2 HD2]; subst. inversion HD2; subst.
        cbn [index nth_error expect bind].
        rewrite (eval_binary_spec n v v2 g g2) by auto. cbn [bind].
        unfold grad_dirs_binary.
        rewrite (mapM_map _ (fun dir => tab n (hd dir))).
        + cbn [bind]. eexists; split; reflexivity.
        + intros dir Hin. apply in_seq in Hin.
          destruct (grad_dir_view_spec nd n d dg dir v Hd Hs) as (dv & -> & Hr & Hsh & Hdead); [lia|].
          destruct (grad_dir_view_spec nd n d2 dg2 dir v2 Hd2 Hs2) as (dv2 & -> & Hr2 & Hsh2 & Hdead2); [lia|].
          cbn [bind].
          assert (Hb : match dv, dv2 with RConst u, RConst w => fis_zero F u && fis_zero F w | _, _ => false end
                       = deadv F dv && deadv F dv2).
          { destruct dv, dv2; cbn; auto. now rewrite andb_false_r. }
          rewrite Hb, Hdead, Hdead2.
          unfold hd. cbn [map der_step forallb]. rewrite andb_true_r. cbn [andb].
          destruct (gdead d dir && gdead d2 dir).
          * now rewrite tab_const.
          * rewrite (grad_binary_spec n v v2 dv dv2 g g2 (dg dir) (dg2 dir)) by auto. reflexivity.
      - unfold grad_vals_loop.
        rewrite (mapM_map _ h).
        + cbn [bind]. unfold grad_dirs_nary.
          destruct (Nat.leb_spec 1 n); [|lia]. cbn [assert_ bind].
          rewrite (mapM_map _ (fun dir => tab n (hd dir))).
          * cbn [bind]. eexists; split; reflexivity.
          * intros dir Hin. apply in_seq in Hin.
            rewrite (mapM_map _ (hd dir)); [reflexivity|].
            intros row Hrow. apply in_seq in Hrow.
            rewrite (mapM_view_get n _ _ _ HV) by lia. cbn [bind].
            assert (mapM (fun g => grad_at F g dir row n) grads = Ok (map (fun G : nat -> nat -> T => G dir row) Gs)) as ->.
            { clear -HG Hin Hrow. induction HG as [|g G gr Gs Hg _ IH]; cbn; auto.
              rewrite (grad_at_spec nd n g G) by (auto; lia). cbn. rewrite IH. reflexivity. }
            cbn [bind]. f_equal. unfold hd, der_step. rewrite dot_partials_chain.
            assert (List.length (map (fun G : nat -> nat -> T => G dir row) Gs) = A).
            { rewrite map_length, <- (Forall2_len _ _ _ HG), <- (Forall2_len _ _ _ HS); auto. }
            destruct (map (fun G : nat -> nat -> T => G dir row) Gs) as [|a [|b [|c l]]]; auto; cbn in *; lia.
        + intros row Hrow. apply in_seq in Hrow. rewrite (mapM_view_get n _ _ _ HV) by lia. reflexivity. }
    destruct Hbody as (og & -> & Hog). cbn [bind]. rewrite Hog.
    unfold kstop, kflag. fold (gkfin n h). fold fin.
    destruct (check_finite o); cbn [andb negb orb].
    - destruct fin eqn:Ef; cbn [negb andb].
      + do 3 eexists; split; [reflexivity|]. rewrite tab_length, gflat_length, andb_false_r. repeat split; auto; discriminate.
      + destruct (early_exit o); cbn [andb].
        * do 3 eexists; split; [reflexivity|]. rewrite !fill_length, tab_length, gflat_length. repeat split; auto; discriminate.
        * do 3 eexists; split; [reflexivity|]. rewrite tab_length, gflat_length. repeat split; auto; discriminate.
    - do 3 eexists; split; [reflexivity|]. rewrite tab_length, gflat_length. repeat split; auto; discriminate.
  Qed.
End Kernels.
