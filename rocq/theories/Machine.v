(** A generic simulation lemma: any executor whose single step computes an operator node from its
    argument slots, executed on compiled code, computes the tree. *)
From Verif Require Import Base BaseLemmas Node Tree NodeProofs Compile CompileProofs Eval EvalProofs Deriv.

Section Machine.
  Variables (M V : Type) (step : M -> instr -> res (M * bool)) (o : eopts) (S : nat).
  Variables (wf : M -> Prop) (get : M -> nat -> V) (rep : V -> tree -> Prop).
  Variables (tok : tree -> Prop) (lfin : nat -> list tree -> bool).

  Definition msrep (m : M) (s : src) (t : tree) : Prop :=
    match s with
    | SVar f => t = TVar f
    | SConst i => t = TConst i
    | SSlot k => (exists op ts, t = TOp op ts) /\ rep (get m k) t
    end.

  Fixpoint mfin (t : tree) : bool :=
    match t with
    | TVar _ | TConst _ => true
    | TOp op ts => forallb mfin ts && lfin op ts
    end.

  Hypothesis tok_children : forall op ts, tok (TOp op ts) -> Forall tok ts.
  Hypothesis step_ok : forall m op ts args dst,
    wf m -> Forall2 (msrep m) args ts -> ~ In dst (slots args) -> (forall k, In k (slots args) -> k < S) ->
    dst < S -> tok (TOp op ts) ->
    exists m' ok, step m (mkInstr (List.length ts) op args dst) = Ok (m', ok) /\ wf m'
      /\ (kstop o (lfin op ts) = true -> ok = false)
      /\ (kstop o (lfin op ts) = false ->
            ok = kflag o (lfin op ts) /\ rep (get m' dst) (TOp op ts)
            /\ forall k, k < S -> k <> dst -> get m' k = get m k).

  Lemma run_app is1 : forall is2 m complete,
    run_instrs step (early_exit o) (is1 ++ is2) m complete
    = let! (m1, st) := run_instrs step (early_exit o) is1 m complete in
      match st with
      | None => Ok (m1, None)
      | Some c => run_instrs step (early_exit o) is2 m1 c
      end.
  Proof.
    induction is1 as [|i is1 IH]; intros is2 m complete; cbn [app run_instrs]; [reflexivity|].
    destruct (step m i) as [[s ok]| |]; cbn [bind]; auto.
    destruct (early_exit o && negb ok); auto.
  Qed.

  Definition mpost (live : list nat) (fin : bool) (post : M -> Prop) (is : list instr) : Prop :=
    forall m complete, wf m ->
    exists m', wf m'
      /\ run_instrs step (early_exit o) is m complete
         = Ok (m', if kstop o fin then None else Some (complete && kflag o fin))
      /\ (kstop o fin = false -> post m' /\ forall k, k < S -> In k live -> get m' k = get m k).

  Lemma run_codes :
    (forall live t is s, codes S live t is s -> tok t -> live_bound S live ->
        mpost live (mfin t) (fun m => msrep m s t) is)
    /\ (forall live ts is ss, codess S live ts is ss -> Forall tok ts -> live_bound S live ->
        mpost live (forallb mfin ts) (fun m => Forall2 (msrep m) ss ts) is).
  Proof.
    apply codes_codess_ind.
    - intros live f Hok Hlb m complete Hw. exists m. split; auto. cbn.
      unfold kstop, kflag. cbn. rewrite andb_false_r, orb_true_r, andb_true_r. split; auto.
    - intros live i Hok Hlb m complete Hw. exists m. split; auto. cbn.
      unfold kstop, kflag. cbn. rewrite andb_false_r, orb_true_r, andb_true_r. split; auto.
    - intros live op ts is args dst Hcs IH Hn1 Hn2 Hd Hok Hlb m complete Hw.
      destruct (IH (tok_children _ _ Hok) Hlb m complete Hw) as (m1 & Hw1 & E1 & P1).
      rewrite run_app, E1. cbn [bind mfin].
      rewrite kstop_and, kflag_and.
      destruct (kstop o (forallb mfin ts)) eqn:Es; cbn [orb].
      + exists m1. repeat split; auto; discriminate.
      + destruct (P1 eq_refl) as [HR Hlv]. clear P1.
        destruct (step_ok m1 op ts args dst) as (m2 & ok & E2 & Hw2 & Hst & Hgo); auto.
        { intros k Hk. exact (proj1 (proj2 (codes_slot S) _ _ _ _ Hcs k Hk)). }
        cbn [run_instrs]. rewrite E2. cbn [bind]. exists m2. split; auto.
        destruct (kstop o (lfin op ts)) eqn:Ek.
        * rewrite (Hst eq_refl).
          assert (early_exit o = true) as ->.
          { unfold kstop in Ek. destruct (early_exit o); auto. rewrite andb_false_r in Ek. discriminate. }
          cbn. split; auto. discriminate.
        * destruct (Hgo eq_refl) as (Hflag & Hrep & Hoth).
          assert (early_exit o && negb ok = false) as ->.
          { rewrite Hflag. unfold kstop, kflag in *. destruct (check_finite o), (early_exit o), (lfin op ts); cbn in *; auto; discriminate. }
          rewrite Hflag, andb_assoc. split; [reflexivity|]. intros _. split.
          -- cbn. split; eauto.
          -- intros k Hk Hin. rewrite Hoth; auto. intros ->. tauto.
    - intros live _ Hlb m complete Hw. exists m. split; auto. cbn.
      unfold kstop, kflag. cbn. rewrite andb_false_r, orb_true_r, andb_true_r. split; auto.
    - intros live t ts is1 is2 s ss Hc IHc Hcs IHcs Hok Hlb m complete Hw.
      inversion Hok as [|? ? Hok1 Hok2]; subst.
      destruct (IHc Hok1 Hlb m complete Hw) as (m1 & Hw1 & E1 & P1).
      rewrite run_app, E1. cbn [bind forallb].
      rewrite kstop_and, kflag_and.
      destruct (kstop o (mfin t)) eqn:Es; cbn [orb].
      + exists m1. repeat split; auto; discriminate.
      + destruct (P1 eq_refl) as [HR Hlv]. clear P1.
        pose proof (proj1 (codes_slot S) _ _ _ _ Hc) as Hsl.
        assert (Hlb' : live_bound S (slots [s] ++ live)).
        { intros k Hk. apply in_app_or in Hk as [Hk|Hk]; [apply Hsl; auto|auto]. }
        destruct (IHcs Hok2 Hlb' m1 (complete && kflag o (mfin t)) Hw1) as (m2 & Hw2 & E2 & P2).
        rewrite E2. exists m2. split; auto.
        destruct (kstop o (forallb mfin ts)); [split; auto; discriminate|].
        rewrite andb_assoc. split; auto. intros _. destruct (P2 eq_refl) as [HR2 Hlv2].
        split.
        * constructor; auto. destruct s as [k|f|i]; cbn in HR |- *; auto.
          destruct HR as [HR0 HR1]. split; auto. rewrite Hlv2; auto.
          -- apply (Hsl k). cbn; auto.
          -- apply in_or_app; left; cbn; auto.
        * intros k Hk Hin. rewrite Hlv2; auto. apply in_or_app; auto.
  Qed.
End Machine.
