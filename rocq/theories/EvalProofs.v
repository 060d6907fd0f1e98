(** Array evaluation computes the recursive value of the tree. *)
From Verif Require Import Base BaseLemmas Node Tree NodeProofs Compile CompileProofs Eval.

Definition tab {T} (n : nat) (g : nat -> T) : list T := map g (seq 0 n).

Lemma tab_length {T} n (g : nat -> T) : List.length (tab n g) = n.
Proof. unfold tab. now rewrite map_length, seq_length. Qed.

Lemma tab_nth {T} n (g : nat -> T) i : i < n -> nth_error (tab n g) i = Some (g i).
Proof.
  intros H. unfold tab. rewrite nth_error_map.
  replace (nth_error (seq 0 n) i) with (Some i); auto.
  symmetry. rewrite nth_error_nth' with (d := 0) by (rewrite seq_length; lia).
  now rewrite seq_nth by lia.
Qed.

Lemma tab_ext {T} n (g h : nat -> T) : (forall i, i < n -> g i = h i) -> tab n g = tab n h.
Proof. intros H. unfold tab. apply map_ext_in. intros i Hi. apply in_seq in Hi. apply H; lia. Qed.

Lemma tab_const {T} n (c : T) : tab n (fun _ => c) = fill n c.
Proof.
  unfold tab, fill. generalize 0. induction n as [|n IH]; intros k; cbn; auto. now rewrite IH.
Qed.

Lemma map_tab {A B} n (g : nat -> A) (f : A -> B) : map f (tab n g) = tab n (fun r => f (g r)).
Proof. unfold tab. now rewrite map_map. Qed.

Lemma combine_tab {A B} n (g : nat -> A) (h : nat -> B) :
  combine (tab n g) (tab n h) = tab n (fun r => (g r, h r)).
Proof. unfold tab. induction (seq 0 n) as [|k l IH]; cbn; auto. now rewrite IH. Qed.

Lemma list_tab {T} (l : list T) d n : List.length l = n -> l = tab n (fun r => nth r l d).
Proof.
  intros <-. apply nth_error_ext. intros i.
  destruct (Nat.lt_ge_cases i (List.length l)).
  - rewrite tab_nth by auto. now apply nth_error_nth'.
  - rewrite !(proj2 (nth_error_None _ _)); auto. now rewrite tab_length.
Qed.

Lemma fill_length {T} n (c : T) : List.length (fill n c) = n.
Proof. apply repeat_length. Qed.

(** A resolved argument [v] denotes the per-row function [g]. *)
Definition vrep {T} (n : nat) (v : srcref T) (g : nat -> T) : Prop :=
  match v with
  | RSlice s => s = tab n g
  | RConst c => forall r, g r = c
  end.

Section Kernel.
  Context {T : Type} (F : FloatOps T).

  (** Finiteness as the kernel checks it: once when all arguments are constants, else at every row. *)
  Definition kfin (n : nat) (allc : bool) (h : nat -> T) : bool :=
    if allc then ffinite F (h 0) else forallb (ffinite F) (tab n h).

  Definition kstop (o : eopts) (fin : bool) : bool := check_finite o && early_exit o && negb fin.
  Definition kflag (o : eopts) (fin : bool) : bool := negb (check_finite o) || fin.

  Lemma eval_rows_loop_spec (f : list T -> T) o n views gs :
    Forall2 (vrep n) views gs ->
    forall k row acc complete, row + k = n ->
    let h r := f (map (fun g => g r) gs) in
    let vs := map h (seq row k) in
    eval_rows_loop F f views o row k acc complete
    = if kstop o (forallb (ffinite F) vs) then Ok None
      else Ok (Some (acc ++ vs, complete && kflag o (forallb (ffinite F) vs))).
  Proof.
    intros HV. induction k as [|k IH]; intros row acc complete Hn h vs.
    - cbn. unfold kstop, kflag. cbn. rewrite andb_false_r, orb_true_r, andb_true_r, app_nil_r. reflexivity.
    - cbn [eval_rows_loop].
      assert (Hm : mapM (fun v => view_get v row) views = Ok (map (fun g => g row) gs)).
      { clear -HV Hn. induction HV as [|v g vs gs Hv _ IH]; cbn; auto.
        assert (view_get v row = Ok (g row)) as ->.
        { destruct v as [s|c]; cbn in Hv |- *; [|now rewrite Hv]. subst s. unfold index.
          rewrite tab_nth by lia. reflexivity. }
        cbn. rewrite IH. reflexivity. }
      rewrite Hm. cbn [bind]. fold (h row).
      subst vs. cbn [seq map forallb].
      unfold maybe_mark_nonfinite, kstop, kflag in *.
      destruct (check_finite o) eqn:Ec; cbn [andb negb orb] in *.
      + destruct (ffinite F (h row)) eqn:Ef; cbn [andb negb].
        * rewrite IH by lia. cbn zeta. rewrite <- app_assoc. reflexivity.
        * destruct (early_exit o) eqn:Ee; cbn [andb negb]; [reflexivity|].
          rewrite IH by lia. cbn zeta. rewrite <- app_assoc. cbn [app andb].
          now rewrite !andb_false_r.
      + rewrite IH by lia. cbn zeta. cbn [andb]. rewrite <- app_assoc. reflexivity.
  Qed.

  Lemma finish_eval_spec o n h complete :
    complete = true \/ complete = kflag o (forallb (ffinite F) (tab n h)) ->
    exists out ok, finish_eval F o (tab n h) complete = (out, ok)
      /\ List.length out = n
      /\ (kstop o (forallb (ffinite F) (tab n h)) = true -> ok = false)
      /\ (kstop o (forallb (ffinite F) (tab n h)) = false ->
            out = tab n h /\ ok = kflag o (forallb (ffinite F) (tab n h))).
  Proof.
    intros Hc. unfold finish_eval, kstop, kflag in *.
    destruct (check_finite o); cbn [negb orb andb] in *.
    - destruct (forallb (ffinite F) (tab n h)) eqn:Ef; cbn [negb andb].
      + eexists _, _; split; [reflexivity|]. rewrite tab_length, !andb_false_r.
        repeat split; intros; try discriminate. destruct Hc as [-> | ->]; reflexivity.
      + destruct (early_exit o); cbn [andb].
        * eexists _, _; split; [reflexivity|]. rewrite fill_length, tab_length.
          repeat split; intros; try discriminate.
        * eexists _, _; split; [reflexivity|]. rewrite tab_length.
          repeat split; intros; try discriminate. now rewrite andb_false_r.
    - eexists _, _; split; [reflexivity|]. rewrite tab_length. cbn. repeat split; intros; discriminate.
  Qed.

  Lemma forall2_const_views n views gs :
    Forall2 (vrep n) views gs -> forallb is_const_ref views = true ->
    mapM (fun v => view_get v 0) views = Ok (map (fun g => g 0) gs)
    /\ forall r, map (fun g : nat -> T => g r) gs = map (fun g => g 0) gs.
  Proof.
    induction 1 as [|v g vs gs Hv _ IH]; cbn; intros Hc; [split; auto|].
    apply andb_true_iff in Hc as [Hc1 Hc2]. destruct (IH Hc2) as [IH1 IH2].
    destruct v as [s|c]; cbn in Hc1; try discriminate. cbn in Hv. rewrite IH1, Hv. cbn.
    split; auto. intros r. now rewrite Hv, IH2.
  Qed.

  Lemma eval_nary_spec A (f : list T -> T) o n views gs :
    Forall2 (vrep n) views gs -> List.length views = A -> 1 <= A ->
    let h r := f (map (fun g => g r) gs) in
    let fin := kfin n (forallb is_const_ref views) h in
    exists out ok, eval_nary F A f n views o = Ok (out, ok)
      /\ List.length out = n
      /\ (kstop o fin = true -> ok = false)
      /\ (kstop o fin = false -> out = tab n h /\ ok = kflag o fin).
  Proof.
    intros HV HA HA1 h fin. unfold eval_nary. rewrite HA, Nat.eqb_refl. cbn [assert_ bind].
    subst fin. unfold kfin.
    destruct (forallb is_const_ref views) eqn:Ec.
    - destruct (forall2_const_views _ _ _ HV Ec) as [Hm He]. rewrite Hm. cbn [bind].
      fold (h 0).
      assert (Hh : tab n h = fill n (h 0)).
      { rewrite <- tab_const. apply tab_ext. intros i _. unfold h. now rewrite He. }
      rewrite Hh. unfold kstop, kflag.
      destruct (check_finite o); cbn [negb andb orb].
      + destruct (ffinite F (h 0)), (early_exit o); cbn [negb andb];
          eexists _, _; (split; [reflexivity|]); rewrite fill_length; repeat split; intros; discriminate || auto.
      + eexists _, _; (split; [reflexivity|]); rewrite fill_length; repeat split; intros; discriminate || auto.
    - destruct (Nat.eqb_spec A 1) as [E1|E1]; [|destruct (Nat.eqb_spec A 2) as [E2|E2]].
      + inversion HV as [|v g vs gs' Hv HV']; subst; cbn in *; try discriminate.
        inversion HV'; subst; cbn in *; try discriminate.
        destruct v as [s|c]; cbn in *; try discriminate. subst s. rewrite tab_length, Nat.eqb_refl.
        rewrite map_tab. cbn [bind].
        destruct (finish_eval_spec o n h true (or_introl eq_refl)) as (out & ok & E & R).
        exists out, ok. split; [|exact R]. f_equal. exact E.
      + inversion HV as [|v g vs gs' Hv HV']; subst; cbn in *; try discriminate.
        inversion HV' as [|v2 g2 vs2 gs2 Hv2 HV2]; subst; cbn in *; try discriminate.
        inversion HV2; subst; cbn in *; try discriminate.
        assert (E : eval_binary_loop n v v2 (fun a b => f [a; b]) = Ok (tab n h)).
        { destruct v as [s|c], v2 as [s2|c2]; cbn in *; try discriminate; subst.
          - unfold zip_eq. rewrite !tab_length, Nat.eqb_refl. cbn [bind].
            rewrite combine_tab, tab_length, Nat.eqb_refl, map_tab. reflexivity.
          - rewrite tab_length, Nat.eqb_refl, map_tab. f_equal. apply tab_ext. intros i _.
            unfold h. now rewrite Hv2.
          - rewrite tab_length, Nat.eqb_refl, map_tab. f_equal. apply tab_ext. intros i _.
            unfold h. now rewrite Hv. }
        rewrite E. cbn [bind].
        destruct (finish_eval_spec o n h true (or_introl eq_refl)) as (out & ok & E' & R).
        exists out, ok. split; [|exact R]. f_equal. exact E'.
      + rewrite (eval_rows_loop_spec f o n views gs HV n 0 [] true eq_refl).
        fold h. change (map h (seq 0 n)) with (tab n h).
        destruct (kstop o (forallb (ffinite F) (tab n h))) eqn:Ek; cbn [bind].
        * eexists _, _; split; [reflexivity|]. rewrite fill_length. repeat split; intros; discriminate || auto.
        * cbn [app andb].
          destruct (finish_eval_spec o n h _ (or_intror eq_refl)) as (out & ok & E' & R).
          exists out, ok. split; [f_equal; exact E'|]. rewrite Ek in R. exact R.
  Qed.
End Kernel.

(** Slot [k] of a scratch buffer. *)
Definition chunk {T} (n k : nat) (l : list T) : list T := firstn n (skipn (k * n) l).

Lemma chunk_nth {T} n k (l : list T) i : i < n -> nth_error (chunk n k l) i = nth_error l (k * n + i).
Proof. intros H. unfold chunk. rewrite nth_error_firstn, nth_error_skipn by auto. reflexivity. Qed.

Lemma chunk_length {T} n k S (l : list T) : List.length l = S * n -> k < S -> List.length (chunk n k l) = n.
Proof. intros Hl Hk. unfold chunk. rewrite firstn_length, skipn_length, Hl. nia. Qed.

(** Writing one slot. *)
Lemma chunk_write {T} n S (l out : list T) d k :
  List.length l = S * n -> d < S -> List.length out = n -> k < S ->
  chunk n k (firstn (d * n) l ++ out ++ skipn n (skipn (d * n) l))
  = if k =? d then out else chunk n k l.
Proof.
  intros Hl Hd Ho Hk.
  assert (Hb : List.length (firstn (d * n) l) = d * n) by (rewrite firstn_length, Hl; nia).
  apply nth_error_ext. intros i.
  destruct (Nat.lt_ge_cases i n) as [Hi|Hi].
  - rewrite chunk_nth by auto.
    destruct (Nat.eqb_spec k d) as [->|Hne].
    + rewrite nth_error_app2 by lia. rewrite Hb. replace (d * n + i - d * n) with i by lia.
      rewrite nth_error_app1 by lia. reflexivity.
    + rewrite chunk_nth by auto.
      destruct (Nat.lt_ge_cases k d).
      * assert (k * n + i < d * n) by nia.
        rewrite nth_error_app1 by lia. now rewrite nth_error_firstn by lia.
      * assert (d * n + n <= k * n) by nia.
        rewrite nth_error_app2 by lia. rewrite Hb. rewrite nth_error_app2 by lia.
        rewrite Ho, !nth_error_skipn. f_equal. lia.
  - assert (Hlen : forall l' : list T, List.length l' = S * n -> nth_error (chunk n k l') i = None).
    { intros l' Hl'. apply nth_error_None. rewrite (chunk_length n k S l') by auto. lia. }
    rewrite Hlen.
    + destruct (Nat.eqb_spec k d); [|now rewrite Hlen].
      symmetry. apply nth_error_None. lia.
    + rewrite !app_length, !skipn_length, Hb, Ho, Hl. nia.
Qed.

Lemma write_length {T} n S (l out : list T) d :
  List.length l = S * n -> d < S -> List.length out = n ->
  List.length (firstn (d * n) l ++ out ++ skipn n (skipn (d * n) l)) = S * n.
Proof.
  intros Hl Hd Ho. rewrite !app_length, firstn_length, !skipn_length, Ho, Hl. nia.
Qed.

Section Exec.
  Context {T : Type} (F : FloatOps T) (O : OpSet T).
  Variables (x : list T) (n nf : nat) (cs : list T) (o : eopts).
  Hypothesis Hx : List.length x = nf * n.

  (** Values of variables and constants; the default is never used on in-range indices. *)
  Definition xval (r f : nat) : T := nth (f * n + r) x (fnan F).
  Definition cval (i : nat) : T := nth i cs (fnan F).
  Definition col (t : tree) (r : nat) : T := teval O (xval r) cval t.

  Definition is_tconst (t : tree) : bool := match t with TConst _ => true | _ => false end.

  (** Finiteness of the columns of all operator nodes, as the kernels check it. *)
  Fixpoint colfin (t : tree) : bool :=
    match t with
    | TVar _ | TConst _ => true
    | TOp op ts => forallb colfin ts && kfin F n (forallb is_tconst ts) (col (TOp op ts))
    end.

  Definition srep (scratch : list T) (s : src) (t : tree) : Prop :=
    match s with
    | SVar f => t = TVar f
    | SConst i => t = TConst i
    | SSlot k => (exists op ts, t = TOp op ts) /\ chunk n k scratch = tab n (col t)
    end.

  Variables (D : nat).
  Notation tok := (tree_ok D nf (List.length cs) (oknown O)).

  Lemma resolve_spec S scratch d s t :
    List.length scratch = S * n -> d < S -> tok t ->
    srep scratch s t -> (forall k, In k (slots [s]) -> k <> d /\ k < S) ->
    exists v, resolve_val_src s x n cs d (firstn (d * n) scratch) (skipn n (skipn (d * n) scratch)) = Ok v
      /\ vrep n v (col t) /\ is_const_ref v = is_tconst t.
  Proof.
    intros Hl Hd Ht Hs Hk. destruct s as [k|f|i]; cbn in Hs.
    - destruct (Hk k) as [Hne HkS]; [cbn; auto|]. destruct Hs as ((op & ts & ->) & Hc).
      cbn [resolve_val_src].
      assert (Hb : List.length (firstn (d * n) scratch) = d * n) by (rewrite firstn_length, Hl; nia).
      destruct (Nat.ltb_spec k d).
      + rewrite slice_ok by (rewrite Hb; nia). cbn [bind]. eexists; split; [reflexivity|]. split; auto.
        cbn. rewrite <- Hc. apply nth_error_ext. intros j.
        destruct (Nat.lt_ge_cases j n).
        * fold (chunk n k (firstn (d * n) scratch)). rewrite !chunk_nth by auto. rewrite nth_error_firstn by nia. reflexivity.
        * rewrite !(proj2 (nth_error_None _ _)); auto.
          -- rewrite (chunk_length n k S); auto.
          -- rewrite firstn_length. lia.
      + destruct (Nat.ltb_spec d k); [|lia].
        rewrite slice_ok by (rewrite !skipn_length, Hl; nia). cbn [bind]. eexists; split; [reflexivity|]. split; auto.
        cbn. rewrite <- Hc. apply nth_error_ext. intros j.
        destruct (Nat.lt_ge_cases j n).
        * rewrite nth_error_firstn, !nth_error_skipn, chunk_nth by auto. f_equal. nia.
        * rewrite !(proj2 (nth_error_None _ _)); auto.
          -- rewrite (chunk_length n k S); auto.
          -- rewrite firstn_length. lia.
    - subst t. cbn in Ht. cbn [resolve_val_src].
      rewrite slice_ok by (rewrite Hx; nia). cbn [bind]. eexists; split; [reflexivity|]. split; auto.
      cbn. apply nth_error_ext. intros j. destruct (Nat.lt_ge_cases j n).
      + rewrite nth_error_firstn, nth_error_skipn, tab_nth by auto. unfold col. cbn. unfold xval.
        apply nth_error_nth'. rewrite Hx. nia.
      + rewrite !(proj2 (nth_error_None _ _)); auto; [now rewrite tab_length|rewrite firstn_length; lia].
    - subst t. cbn in Ht. cbn [resolve_val_src]. unfold index.
      rewrite (nth_error_nth' cs (fnan F)) by auto. cbn. eexists; split; [reflexivity|]. split; auto.
      cbn. intros r. reflexivity.
  Qed.

  Lemma exec_app is1 : forall is2 scratch complete,
    exec_instrs F O x n cs o (is1 ++ is2) scratch complete
    = let! (s1, st) := exec_instrs F O x n cs o is1 scratch complete in
      match st with
      | None => Ok (s1, None)
      | Some c => exec_instrs F O x n cs o is2 s1 c
      end.
  Proof.
    induction is1 as [|i is1 IH]; intros is2 scratch complete; cbn [app exec_instrs]; [reflexivity|].
    destruct (exec_instr F O x n cs o scratch i) as [[s ok]| |]; cbn [bind]; auto.
    destruct (early_exit o && negb ok); auto.
  Qed.

  Definition cols_fin (ts : list tree) : bool := forallb colfin ts.

  Definition exec_post (S : nat) (live : list nat) (fin : bool) (post : list T -> Prop)
      (is : list instr) : Prop :=
    forall scratch complete, List.length scratch = S * n ->
    exists scratch', List.length scratch' = S * n
      /\ exec_instrs F O x n cs o is scratch complete
         = Ok (scratch', if kstop o fin then None else Some (complete && kflag o fin))
      /\ (kstop o fin = false ->
            post scratch' /\ forall k, k < S -> In k live -> chunk n k scratch' = chunk n k scratch).

  Definition live_bound (S : nat) (live : list nat) : Prop := forall k, In k live -> k < S.

  Lemma srep_live scratch scratch' s t :
    (forall k, In k (slots [s]) -> chunk n k scratch' = chunk n k scratch) ->
    srep scratch s t -> srep scratch' s t.
  Proof.
    destruct s as [k|f|i]; cbn; auto. intros H [H1 H2]. split; auto. rewrite H; auto.
  Qed.

  Lemma codes_slot S :
    (forall live t is s, codes S live t is s -> forall k, In k (slots [s]) -> k < S /\ ~ In k live)
    /\ (forall live ts is ss, codess S live ts is ss -> forall k, In k (slots ss) -> k < S /\ ~ In k live).
  Proof.
    apply codes_codess_ind; intros; try (cbn in *; tauto).
    - cbn in H0. destruct H0 as [<-|[]]. auto.
    - rewrite slots_cons in H1. apply in_app_or in H1 as [H1|H1]; [apply H; auto|].
      destruct (H0 k H1) as [H2 H3]. split; auto. intros Hin. apply H3. apply in_or_app; auto.
  Qed.

  Lemma kstop_and a b : kstop o (a && b) = kstop o a || kstop o b.
  Proof. unfold kstop. destruct (check_finite o), (early_exit o), a, b; reflexivity. Qed.

  Lemma kflag_and a b : kflag o (a && b) = kflag o a && kflag o b.
  Proof. unfold kflag. destruct (check_finite o), a, b; reflexivity. Qed.

  Lemma exec_codes S :
    (forall live t is s, codes S live t is s -> tok t -> live_bound S live ->
        exec_post S live (colfin t) (fun sc => srep sc s t) is)
    /\ (forall live ts is ss, codess S live ts is ss -> Forall tok ts -> live_bound S live ->
        exec_post S live (cols_fin ts) (fun sc => Forall2 (srep sc) ss ts) is).
  Proof.
    apply codes_codess_ind.
    - (* var *) intros live f Hok Hlb scratch complete Hl. exists scratch. split; auto. cbn.
      unfold kstop, kflag. cbn. rewrite andb_false_r, orb_true_r, andb_true_r. split; auto.
    - intros live i Hok Hlb scratch complete Hl. exists scratch. split; auto. cbn.
      unfold kstop, kflag. cbn. rewrite andb_false_r, orb_true_r, andb_true_r. split; auto.
    - (* op *) intros live op ts is args dst Hcs IH Hn1 Hn2 Hd Hok Hlb scratch complete Hl.
      cbn [tree_ok] in Hok. destruct Hok as (Hlen & Hkn & Hok). apply fold_right_and_Forall in Hok.
      destruct (IH Hok Hlb scratch complete Hl) as (sc1 & Hl1 & E1 & P1).
      rewrite exec_app, E1. cbn [bind]. cbn [colfin]. change (forallb colfin ts) with (cols_fin ts).
      set (kf := kfin F n (forallb is_tconst ts) (col (TOp op ts))).
      rewrite kstop_and, kflag_and.
      destruct (kstop o (cols_fin ts)) eqn:Es; cbn [orb].
      + exists sc1. repeat split; auto; discriminate.
      + destruct (P1 eq_refl) as [HR Hlv]. clear P1.
        cbn [exec_instrs]. unfold exec_instr. cbn [i_dst i_arity i_args i_op].
        unfold split_at.
        assert (Hb : dst * n <= List.length sc1) by (rewrite Hl1; nia).
        destruct (Nat.leb_spec (dst * n) (List.length sc1)); [|lia]. cbn [bind].
        rewrite skipn_length.
        destruct (Nat.leb_spec n (List.length sc1 - dst * n)); [|nia]. cbn [bind].
        pose proof (codess_length _ _ _ _ _ Hcs) as Hla.
        replace (firstn (List.length ts) args) with args by (symmetry; apply firstn_all2; lia).
        assert (exists vs, mapM (fun s => resolve_val_src s x n cs dst (firstn (dst * n) sc1) (skipn n (skipn (dst * n) sc1))) args = Ok vs
                  /\ Forall2 (vrep n) vs (map col ts) /\ forallb is_const_ref vs = forallb is_tconst ts) as (vs & Ev & HV & HC).
        { pose proof (proj2 (codes_slot S) _ _ _ _ Hcs) as Hsl. clear -HR Hok Hn2 Hd Hl1 Hsl Hx.
          induction HR as [|s t ss ts Hs _ IHr]; cbn [mapM map forallb].
          - exists []. repeat split; constructor.
          - inversion Hok as [|? ? Ht Hts]; subst.
            destruct (resolve_spec S sc1 dst s t Hl1 Hd Ht Hs) as (v & -> & Hv & Hcv).
            { intros k Hk. split.
              - intros ->. apply Hn2. rewrite slots_cons. apply in_or_app; auto.
              - apply Hsl. rewrite slots_cons. apply in_or_app; auto. }
            destruct IHr as (vs & -> & HV & HC); auto.
            { intros Hin. apply Hn2. rewrite slots_cons. apply in_or_app; auto. }
            { intros k Hk. apply Hsl. rewrite slots_cons. apply in_or_app; auto. }
            cbn [bind]. exists (v :: vs). cbn. rewrite Hcv, HC. repeat split; auto. }
        rewrite Ev. cbn [bind]. unfold ops_eval. rewrite Hkn.
        rewrite firstn_length, skipn_length. replace (Nat.min n (List.length sc1 - dst * n)) with n by lia.
        destruct (eval_nary_spec F (List.length ts) (oeval O (List.length ts) op) o n vs (map col ts) HV) as (out & ok & Eo & Hlo & Hstop & Hgo).
        { rewrite (Forall2_len _ _ _ HV), map_length; auto. }
        { lia. }
        rewrite Eo. cbn [bind].
        assert (Hkf : kfin F n (forallb is_const_ref vs) (fun r => oeval O (List.length ts) op (map (fun g => g r) (map col ts))) = kf).
        { unfold kf. rewrite HC. unfold kfin. unfold col at 2 4. cbn [teval].
          destruct (forallb is_tconst ts).
          - rewrite map_map. reflexivity.
          - f_equal. apply tab_ext. intros r _. rewrite map_map. reflexivity. }
        cbn zeta in Hstop, Hgo. rewrite Hkf in Hstop, Hgo.
        exists (firstn (dst * n) sc1 ++ out ++ skipn n (skipn (dst * n) sc1)).
        split; [apply (write_length n S); auto|].
        destruct (kstop o kf) eqn:Ek.
        * rewrite (Hstop eq_refl).
          assert (early_exit o = true) as ->.
          { unfold kstop in Ek. destruct (early_exit o); auto. rewrite andb_false_r in Ek. discriminate. }
          cbn. split; auto. discriminate.
        * destruct (Hgo eq_refl) as [-> Hflag].
          assert (early_exit o && negb ok = false) as ->.
          { rewrite Hflag. unfold kstop, kflag in *. destruct (check_finite o), (early_exit o), kf; cbn in *; auto; discriminate. }
          rewrite Hflag, andb_assoc. split; [reflexivity|]. intros _. split.
          -- cbn. split; eauto. rewrite (chunk_write n S) by (auto; apply tab_length).
             rewrite Nat.eqb_refl. apply tab_ext. intros r _. unfold col at 2. cbn [teval].
             rewrite map_map. reflexivity.
          -- intros k Hk Hin. rewrite (chunk_write n S) by (auto; apply tab_length).
             destruct (Nat.eqb_spec k dst) as [->|]; [tauto|]. auto.
    - (* nil *) intros live _ Hlb scratch complete Hl. exists scratch. split; auto. cbn.
      unfold kstop, kflag. cbn. rewrite andb_false_r, orb_true_r, andb_true_r. split; auto.
    - (* cons *) intros live t ts is1 is2 s ss Hc IHc Hcs IHcs Hok Hlb scratch complete Hl.
      inversion Hok as [|? ? Hok1 Hok2]; subst.
      destruct (IHc Hok1 Hlb scratch complete Hl) as (sc1 & Hl1 & E1 & P1).
      rewrite exec_app, E1. cbn [bind cols_fin forallb]. change (forallb colfin ts) with (cols_fin ts).
      rewrite kstop_and, kflag_and.
      destruct (kstop o (colfin t)) eqn:Es; cbn [orb].
      + exists sc1. repeat split; auto; discriminate.
      + destruct (P1 eq_refl) as [HR Hlv]. clear P1.
        pose proof (proj1 (codes_slot S) _ _ _ _ Hc) as Hsl.
        assert (Hlb' : live_bound S (slots [s] ++ live)).
        { intros k Hk. apply in_app_or in Hk as [Hk|Hk]; [apply Hsl; auto|auto]. }
        destruct (IHcs Hok2 Hlb' sc1 (complete && kflag o (colfin t)) Hl1) as (sc2 & Hl2 & E2 & P2).
        rewrite E2. exists sc2. split; auto.
        destruct (kstop o (cols_fin ts)); [split; auto; discriminate|].
        rewrite andb_assoc. split; auto. intros _. destruct (P2 eq_refl) as [HR2 Hlv2].
        split.
        * constructor; auto. apply srep_live with sc1; auto. intros k Hk. apply Hlv2.
          -- apply Hsl; auto.
          -- apply in_or_app; auto.
        * intros k Hk Hin. rewrite Hlv2; auto. apply in_or_app; auto.
  Qed.
End Exec.
