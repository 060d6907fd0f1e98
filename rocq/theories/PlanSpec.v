(** Specification of sane compiled code: symbolic execution with trees in the slots. *)
From Verif Require Import Base BaseLemmas Node Tree NodeProofs Compile CompileProofs Eval EvalProofs Deriv Machine.

(** What each slot holds; [None] is "never written". *)
Definition sym_state := nat -> option tree.

Definition src_tree (st : sym_state) (s : src) : option tree :=
  match s with
  | SVar f => Some (TVar f)
  | SConst i => Some (TConst i)
  | SSlot k => st k
  end.

Fixpoint src_trees (st : sym_state) (l : list src) : option (list tree) :=
  match l with
  | [] => Some []
  | s :: l' =>
      match src_tree st s, src_trees st l' with
      | Some t, Some ts => Some (t :: ts)
      | _, _ => None
      end
  end.

Definition reads (s : src) (k : nat) : bool := match s with SSlot j => j =? k | _ => false end.
Definition in_range (n : nat) (s : src) : bool := match s with SSlot j => j <? n | _ => true end.

(** An instruction may only read slots below [n] that were written, and not its own destination. *)
Definition sym_instr (n : nat) (st : sym_state) (i : instr) : option sym_state :=
  if (i_dst i <? n) && (List.length (i_args i) =? i_arity i)
     && forallb (in_range n) (i_args i) && negb (existsb (fun s => reads s (i_dst i)) (i_args i))
  then match src_trees st (i_args i) with
       | Some ts => Some (fun k => if k =? i_dst i then Some (TOp (i_op i) ts) else st k)
       | None => None
       end
  else None.

Fixpoint sym_run (n : nat) (is : list instr) (st : sym_state) : option sym_state :=
  match is with
  | [] => Some st
  | i :: is' => match sym_instr n st i with Some st' => sym_run n is' st' | None => None end
  end.

(** Proof that compiled code is sane. *)
Definition sym_step (n : nat) (st : sym_state) (i : instr) : res (sym_state * bool) :=
  match sym_instr n st i with Some st' => Ok (st', true) | None => Panic end.

Lemma sym_run_spec n is : forall st c st' r,
  run_instrs (sym_step n) false is st c = Ok (st', r) -> sym_run n is st = Some st'.
Proof.
  induction is as [|i is IH]; cbn [run_instrs sym_run]; intros st c st' r H.
  - injection H as <- _. reflexivity.
  - unfold sym_step at 1 in H. destruct (sym_instr n st i) as [s1|]; cbn [bind] in H; [|discriminate].
    cbn [andb] in H. eapply IH; eauto.
Qed.

Lemma codes_sym S t is s : codes S [] t is s ->
  exists st, sym_run S is (fun _ => None) = Some st /\ src_tree st s = Some t
    /\ (forall k, s = SSlot k -> k < S).
Proof.
  intros HC.
  pose proof (run_codes sym_state (option tree) (sym_step S) (mkOpts false false) S
     (fun _ => True) (fun m k => m k) (fun v t => v = Some t) (fun _ => True) (fun _ _ => true)) as [HR _].
  { intros. apply Forall_forall. auto. }
  { intros m op ts args dst _ HA Hn Hb Hd _. unfold sym_step, sym_instr. cbn [i_dst i_args i_arity i_op].
    rewrite (Forall2_len _ _ _ HA), Nat.eqb_refl. destruct (Nat.ltb_spec dst S); [|lia]. cbn [andb].
    assert (forallb (in_range S) args = true) as ->.
    { apply forallb_forall. intros s' Hs. destruct s' as [k| |]; cbn; auto. apply Nat.ltb_lt, Hb.
      unfold slots. apply in_flat_map. exists (SSlot k). split; auto. left; auto. }
    assert (existsb (fun s => reads s dst) args = false) as ->.
    { destruct (existsb _ args) eqn:E; auto. apply existsb_exists in E as (s' & Hs & E).
      destruct s' as [k| |]; try discriminate. cbn in E. apply Nat.eqb_eq in E. subst k.
      exfalso; apply Hn. unfold slots. apply in_flat_map. exists (SSlot dst). split; auto. left; auto. }
    cbn [andb negb].
    assert (src_trees m args = Some ts) as ->.
    { clear -HA. induction HA as [|s t ss ts Hs _ IH]; cbn; auto. rewrite IH.
      destruct s as [k|f|i]; cbn in Hs |- *; [destruct Hs as [_ Hs]; now rewrite Hs|now subst|now subst]. }
    do 2 eexists; split; [reflexivity|]. split; auto. split; [discriminate|]. intros _. split; auto.
    rewrite Nat.eqb_refl. split; auto. intros k _ Hk. destruct (Nat.eqb_spec k dst); congruence. }
  destruct (HR _ _ _ _ HC I (fun k (H : In k []) => match H with end) (fun _ => None) true I) as (m' & _ & E & HP).
  exists m'. cbn in E. split; [eapply sym_run_spec; exact E|].
  destruct HP as [HP _]; [reflexivity|]. split.
  - destruct s as [k|f|i]; cbn in HP |- *; [tauto|now subst|now subst].
  - intros k ->. apply (proj1 (codes_slot S) _ _ _ _ HC). cbn; auto.
Qed.
