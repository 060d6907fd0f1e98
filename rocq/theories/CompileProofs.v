(** The plan compiler produces alias-free code for the tree. *)
From Verif Require Import Base BaseLemmas Node Tree NodeProofs Compile.

Definition slots (l : list src) : list nat :=
  flat_map (fun s => match s with SSlot k => [k] | _ => [] end) l.

Lemma slots_app a b : slots (a ++ b) = slots a ++ slots b.
Proof. apply flat_map_app'. Qed.

Lemma slots_cons s l : slots (s :: l) = slots [s] ++ slots l.
Proof. unfold slots; cbn. now rewrite app_nil_r. Qed.

Lemma slots_rev_perm l : Permutation (slots (rev l)) (slots l).
Proof.
  induction l as [|s l IH]; cbn [rev]; auto. rewrite slots_app, (slots_cons s l).
  rewrite Permutation_app_comm. apply Permutation_app_head, IH.
Qed.

(** Code for a tree that computes it into a source without touching the [live] slots. *)
Inductive codes (S : nat) : list nat -> tree -> list instr -> src -> Prop :=
| codes_var live f : codes S live (TVar f) [] (SVar f)
| codes_const live i : codes S live (TConst i) [] (SConst i)
| codes_op live op cs is args dst :
    codess S live cs is args ->
    ~ In dst live -> ~ In dst (slots args) -> dst < S ->
    codes S live (TOp op cs) (is ++ [mkInstr (List.length cs) op args dst]) (SSlot dst)
with codess (S : nat) : list nat -> list tree -> list instr -> list src -> Prop :=
| codess_nil live : codess S live [] [] []
| codess_cons live c cs is1 is2 s ss :
    codes S live c is1 s ->
    codess S (slots [s] ++ live) cs is2 ss ->
    codess S live (c :: cs) (is1 ++ is2) (s :: ss).

Scheme codes_mind := Induction for codes Sort Prop
  with codess_mind := Induction for codess Sort Prop.
Combined Scheme codes_codess_ind from codes_mind, codess_mind.

Lemma codes_codess_weaken S :
  (forall live t is s, codes S live t is s ->
     forall live' S', (forall k, In k live' -> In k live) -> S <= S' -> codes S' live' t is s)
  /\ (forall live cs is ss, codess S live cs is ss ->
     forall live' S', (forall k, In k live' -> In k live) -> S <= S' -> codess S' live' cs is ss).
Proof.
  apply codes_codess_ind; intros; try (constructor; fail).
  - constructor; auto; lia.
  - econstructor; eauto. apply H0; auto. intros k Hk. apply in_app_or in Hk as [Hk|Hk]; apply in_or_app; auto.
Qed.

Lemma codess_length S live cs is ss : codess S live cs is ss -> List.length ss = List.length cs.
Proof. induction 1; cbn; congruence. Qed.

Lemma codess_app S live cs1 is1 ss1 : codess S live cs1 is1 ss1 ->
  forall cs2 is2 ss2, codess S (rev (slots ss1) ++ live) cs2 is2 ss2 ->
  codess S live (cs1 ++ cs2) (is1 ++ is2) (ss1 ++ ss2).
Proof.
  induction 1 as [live|live c cs i1 i2 s ss Hc Hcs IH]; intros cs2 is2 ss2 H2; [exact H2|].
  cbn [app]. rewrite <- app_assoc. econstructor; eauto. apply IH.
  apply (proj2 (codes_codess_weaken S)) with (1 := H2); auto.
  intros k Hk. rewrite (slots_cons s ss), rev_app_distr, <- app_assoc.
  apply in_app_or in Hk as [Hk|Hk]; [apply in_or_app; auto|].
  apply in_or_app; right. apply in_app_or in Hk as [Hk|Hk]; apply in_or_app; auto.
  left. now apply in_rev in Hk || (apply -> in_rev; auto).
Qed.

(** Number of slots needed for a tree. *)
Definition opn (t : tree) : nat := match t with TOp _ _ => 1 | _ => 0 end.
Definition need_list (need : tree -> nat) : list tree -> nat :=
  fix go (cs : list tree) : nat :=
    match cs with
    | [] => 0
    | c :: cs' => Nat.max (need c) (opn c + go cs')
    end.
Fixpoint need (t : tree) : nat :=
  match t with
  | TVar _ | TConst _ => 0
  | TOp _ cs => Nat.max (need_list need cs) (sum_list (map opn cs) + 1)
  end.

(** Allocator invariant: stack slots and free slots are exactly the slots handed out so far. *)
Record CInv (c : cstate) : Prop := {
  ci_perm : Permutation (slots (c_stack c) ++ c_free c) (seq 0 (c_next c));
  ci_max : c_max c = c_next c;
  ci_bound : c_next c <= u16_max
}.

Lemma cinit_inv : CInv cinit.
Proof. split; cbn; auto. lia. Qed.

Lemma ci_live_le c : CInv c -> List.length (slots (c_stack c)) + List.length (c_free c) = c_next c.
Proof.
  intros H. pose proof (Permutation_length (ci_perm c H)) as E.
  rewrite app_length, seq_length in E. exact E.
Qed.

Lemma free_args_perm args : forall free, Permutation (free_args args free) (slots args ++ free).
Proof.
  unfold free_args. induction args as [|s args IH]; intros free; cbn [fold_left]; [reflexivity|].
  rewrite IH. destruct s as [k|f|i]; cbn; auto.
  symmetry. apply Permutation_middle.
Qed.

Lemma alloc_spec c : CInv c -> List.length (slots (c_stack c)) + 1 <= u16_max ->
  exists dst fr, alloc_slot c = Ok (dst, mkC (c_stack c) (c_instrs c) fr
        (Nat.max (c_next c) (List.length (slots (c_stack c)) + 1))
        (Nat.max (c_next c) (List.length (slots (c_stack c)) + 1)))
   /\ Permutation (dst :: slots (c_stack c) ++ fr)
        (seq 0 (Nat.max (c_next c) (List.length (slots (c_stack c)) + 1)))
   /\ ~ In dst (slots (c_stack c))
   /\ dst < Nat.max (c_next c) (List.length (slots (c_stack c)) + 1).
Proof.
  intros H Hb. pose proof (ci_live_le c H) as Hl. destruct H as [Hp Hm Hbd].
  unfold alloc_slot. destruct (c_free c) as [|s fr] eqn:Ef.
  - cbn in Hl. exists (c_next c), []. rewrite Hm.
    destruct (Nat.ltb_spec (c_next c) u16_max); [|lia].
    replace (Nat.max (c_next c) (List.length (slots (c_stack c)) + 1)) with (c_next c + 1) by lia.
    replace (Nat.max (c_next c) (c_next c + 1)) with (c_next c + 1) by lia.
    rewrite app_nil_r in *. repeat split; auto.
    + rewrite seq_app. cbn [seq]. rewrite Nat.add_0_l, <- Hp. apply Permutation_cons_append.
    + intros Hin. apply (Permutation_in _ Hp) in Hin. apply in_seq in Hin. lia.
    + lia.
  - cbn [List.length] in Hl.
    assert (Hs : s < c_next c).
    { assert (Hin : In s (seq 0 (c_next c))) by (apply (Permutation_in _ Hp); apply in_or_app; right; left; auto).
      apply in_seq in Hin. lia. }
    exists s, fr. rewrite Hm.
    destruct (Nat.ltb_spec s u16_max); [|lia].
    replace (Nat.max (c_next c) (List.length (slots (c_stack c)) + 1)) with (c_next c) by lia.
    replace (Nat.max (c_next c) (s + 1)) with (c_next c) by lia.
    split; [reflexivity|]. split; [|split]; auto.
    + rewrite <- Hp. apply Permutation_middle.
    + assert (Hnd : NoDup (slots (c_stack c) ++ s :: fr)).
      { eapply Permutation_NoDup; [symmetry; exact Hp|apply seq_NoDup]. }
      intros Hin. apply NoDup_remove_2 in Hnd. apply Hnd. apply in_or_app; auto.
Qed.

Section CompileTree.
  Variables (D nf nc : nat) (known : nat -> nat -> bool).

  Lemma compile_tree t : tree_ok D nf nc known t ->
    forall c rest, CInv c ->
    List.length (slots (c_stack c)) + need t <= u16_max ->
    exists c' is s,
      foldM (compile_step D nf nc) (flatten t ++ rest) c = foldM (compile_step D nf nc) rest c'
      /\ c_stack c' = s :: c_stack c
      /\ c_instrs c' = c_instrs c ++ is
      /\ CInv c'
      /\ c_next c' = Nat.max (c_next c) (List.length (slots (c_stack c)) + need t)
      /\ codes (c_next c') (slots (c_stack c)) t is s.
  Proof.
    induction t as [f|i|op cs IH] using tree_ind'; intros Hok c rest Hi Hb.
    - cbn [flatten app foldM compile_step tree_ok need] in *.
      destruct (Nat.ltb_spec f nf); [|lia]. cbn [assert_ bind].
      eexists _, [], (SVar f). split; [reflexivity|]. cbn [c_stack c_instrs c_next].
      rewrite app_nil_r. pose proof (ci_live_le c Hi). repeat split; auto; try (destruct Hi; auto; fail); try lia. constructor.
    - cbn [flatten app foldM compile_step tree_ok need] in *.
      destruct (Nat.ltb_spec i nc); [|lia]. cbn [assert_ bind].
      eexists _, [], (SConst i). split; [reflexivity|]. cbn [c_stack c_instrs c_next].
      rewrite app_nil_r. pose proof (ci_live_le c Hi). repeat split; auto; try (destruct Hi; auto; fail); try lia. constructor.
    - cbn [tree_ok] in Hok. destruct Hok as (Hlen & Hk & Hcs). apply fold_right_and_Forall in Hcs.
      cbn [flatten]. rewrite <- app_assoc. cbn [need] in Hb.
      assert (Hgo : forall c rest, CInv c ->
         List.length (slots (c_stack c)) + need_list need cs <= u16_max ->
         exists c' is ss,
           foldM (compile_step D nf nc) (flat_map flatten cs ++ rest) c = foldM (compile_step D nf nc) rest c'
           /\ c_stack c' = rev ss ++ c_stack c
           /\ c_instrs c' = c_instrs c ++ is
           /\ CInv c'
           /\ c_next c' = Nat.max (c_next c) (List.length (slots (c_stack c)) + need_list need cs)
           /\ List.length (slots ss) = sum_list (map opn cs)
           /\ codess (c_next c') (slots (c_stack c)) cs is ss).
      { clear c rest Hi Hb Hlen Hk. induction IH as [|t ts Ht _ IHts]; intros c rest Hi Hb.
        - exists c, [], []. cbn. rewrite app_nil_r. pose proof (ci_live_le c Hi).
          repeat split; auto; try (destruct Hi; auto; fail); try lia. constructor.
        - inversion Hcs as [|? ? Hok1 Hok2]; subst. cbn [need_list] in Hb. fold (need_list need) in Hb.
          cbn [flat_map]. rewrite <- app_assoc.
          destruct (Ht Hok1 c (flat_map flatten ts ++ rest) Hi) as (c1 & is1 & s & E1 & S1 & I1 & V1 & N1 & C1); [lia|].
          assert (Hs1 : List.length (slots [s]) = opn t).
          { inversion C1; subst; reflexivity. }
          assert (Hsl : List.length (slots (c_stack c1)) = opn t + List.length (slots (c_stack c))).
          { rewrite S1, slots_cons, app_length. lia. }
          destruct (IHts Hok2 c1 rest V1) as (c2 & is2 & ss & E2 & S2 & I2 & V2 & N2 & L2 & C2); [lia|].
          exists c2, (is1 ++ is2), (s :: ss). rewrite E1, E2, S2, S1, I2, I1.
          cbn [rev map sum_list need_list]. rewrite <- !app_assoc. cbn [app].
          split; [reflexivity|]. split; [reflexivity|]. split; [reflexivity|]. split; [exact V2|].
          split; [|split].
          + fold (need_list need). rewrite N2, Hsl, N1. lia.
          + rewrite slots_cons, app_length. lia.
          + econstructor.
            * apply (proj1 (codes_codess_weaken _)) with (1 := C1); auto. lia.
            * rewrite S1, slots_cons in C2. exact C2. }
      destruct (Hgo c ([Op (List.length cs) op] ++ rest) Hi) as (c1 & is1 & ss & E1 & S1 & I1 & V1 & N1 & L1 & C1); [lia|].
      rewrite E1. cbn [app foldM]. unfold compile_step at 1.
      destruct (Nat.leb_spec 1 (List.length cs)); [|lia].
      destruct (Nat.leb_spec (List.length cs) D); [|lia]. cbn [andb assert_ bind].
      pose proof (codess_length _ _ _ _ _ C1) as Hss.
      rewrite S1, <- Hss, popn_app. cbn [expect bind].
      assert (HL : List.length (slots (c_stack c1)) = sum_list (map opn cs) + List.length (slots (c_stack c))).
      { rewrite S1, slots_app, app_length, <- L1. f_equal.
        apply Permutation_length, slots_rev_perm. }
      destruct (alloc_spec c1 V1) as (dst & fr & Ea & Pa & Na & Ba); [lia|].
      rewrite Ea. cbn [bind].
      eexists _, (is1 ++ [mkInstr (List.length ss) op ss dst]), (SSlot dst).
      split; [reflexivity|]. cbn [c_stack c_instrs c_next c_free c_max].
      rewrite I1, <- app_assoc. split; [reflexivity|]. split; [reflexivity|].
      assert (Hn : Nat.max (c_next c1) (List.length (slots (c_stack c1)) + 1)
                 = Nat.max (c_next c) (List.length (slots (c_stack c)) + need (TOp op cs))).
      { cbn [need]. rewrite HL, N1. lia. }
      split; [|split].
      + split; cbn [c_stack c_free c_next c_max]; auto.
        * rewrite <- Pa. rewrite slots_cons. cbn [slots flat_map app].
          apply perm_skip. rewrite free_args_perm. fold (slots (c_stack c)).
          rewrite S1, slots_app, slots_rev_perm, app_assoc.
          apply Permutation_app_tail. apply Permutation_app_comm.
        * pose proof (ci_bound _ V1). rewrite HL. lia.
      + exact Hn.
      + rewrite Hss. constructor.
        * apply (proj2 (codes_codess_weaken _)) with (1 := C1); auto. lia.
        * intros Hin. apply Na. rewrite S1, slots_app. apply in_or_app; auto.
        * intros Hin. apply Na. rewrite S1, slots_app. apply in_or_app; left.
          eapply Permutation_in; [symmetry; apply slots_rev_perm|exact Hin].
        * lia.
  Qed.

  Lemma compile_plan_spec hash t :
    tree_ok D nf nc known t -> nf <= u16_max -> nc <= u16_max -> need t <= u16_max ->
    exists is s, compile_plan hash D (flatten t) nf nc = Ok (mkPlan is (need t) s (hash (flatten t)))
      /\ codes (need t) [] t is s.
  Proof.
    intros Hok Hnf Hnc Hn. unfold compile_plan.
    destruct (Nat.leb_spec nf u16_max); [|lia]. destruct (Nat.leb_spec nc u16_max); [|lia].
    cbn [assert_ bind].
    destruct (compile_tree t Hok cinit [] cinit_inv) as (c' & is & s & E & S1 & I1 & V & N & C); [cbn; lia|].
    rewrite app_nil_r in E. rewrite E. cbn [foldM bind]. rewrite S1. cbn [cinit c_stack].
    rewrite I1. cbn [cinit c_instrs app]. rewrite (ci_max _ V), N in *. cbn [cinit c_next c_stack slots flat_map List.length] in *.
    rewrite !Nat.add_0_l, !Nat.max_0_l in *. eexists _, _; split; [reflexivity|exact C].
  Qed.
End CompileTree.

Lemma opn_le_1 t : opn t <= 1.
Proof. destruct t; cbn; lia. Qed.

(** The slot need is at most the number of operators. *)
Lemma opn_le_ops t : opn t <= ops_in t.
Proof. destruct t; cbn; lia. Qed.

Lemma need_le_ops t : need t <= ops_in t.
Proof.
  induction t as [f|i|o cs IH] using tree_ind'; cbn [need ops_in]; auto.
  assert (need_list need cs <= sum_list (map ops_in cs) /\ sum_list (map opn cs) <= sum_list (map ops_in cs)).
  { induction IH as [|c cs Hc _ [IH1 IH2]]; cbn [need_list map sum_list]; auto.
    fold (need_list need). pose proof (opn_le_ops c). lia. }
  lia.
Qed.

Lemma ops_le_size t : ops_in t <= tsize t.
Proof.
  induction t as [f|i|o cs IH] using tree_ind'; cbn [tsize ops_in]; auto.
  assert (sum_list (map ops_in cs) <= sum_list (map tsize cs)); [|lia].
  induction IH as [|c cs Hc _ IHcs]; cbn; lia.
Qed.

Lemma tdepth_pos t : 1 <= tdepth t.
Proof. destruct t; cbn [tdepth]; lia. Qed.

Lemma need_depth D nf nc known t : tree_ok D nf nc known t ->
  need t <= if tdepth t <=? 1 then 0 else (tdepth t - 2) * (D - 1) + 2.
Proof.
  induction t as [f|i|o cs IH] using tree_ind'; intros Hok; try (cbn; lia).
  cbn [tree_ok] in Hok. destruct Hok as (Hlen & _ & Hok). apply fold_right_and_Forall in Hok.
  cbn [need tdepth]. set (M := fold_right Nat.max 0 (map tdepth cs)).
  assert (HM1 : 1 <= M).
  { subst M. destruct cs as [|c cs]; cbn [map fold_right List.length] in *; [lia|].
    pose proof (tdepth_pos c). lia. }
  destruct (Nat.leb_spec (1 + M) 1); [lia|].
  destruct (Nat.le_gt_cases M 1) as [HM|HM].
  - assert (need_list need cs = 0 /\ sum_list (map opn cs) = 0) as [-> ->]; [|lia].
    assert (Hall : Forall (fun c => tdepth c <= 1) cs).
    { subst M. clear -HM. induction cs as [|c cs IH]; cbn [map fold_right] in *; constructor; [lia|apply IH; lia]. }
    clear -Hall Hok. induction Hall as [|c cs Hc _ IH]; cbn [need_list map sum_list]; auto.
    inversion Hok as [|? ? Hc' Hok']; subst. destruct (IH Hok') as [IH1 IH2].
    fold (need_list need). rewrite IH1, IH2. destruct c as [| |o l]; cbn; auto.
    exfalso. cbn [tdepth tree_ok] in *. destruct Hc' as ((Hl & _) & _).
    destruct l as [|x l]; cbn [map fold_right List.length] in Hl, Hc; [lia|].
    pose proof (tdepth_pos x). lia.
  - assert (HN : Forall (fun c => need c <= (M - 2) * (D - 1) + 2) cs).
    { rewrite Forall_forall in *. intros c Hin. specialize (IH c Hin (Hok c Hin)).
      assert (Hle : tdepth c <= M).
      { subst M. clear -Hin. induction cs as [|x cs IHc]; cbn [map fold_right In] in *; [tauto|].
        destruct Hin as [->|Hin]; [lia|]. specialize (IHc Hin). lia. }
      destruct (Nat.leb_spec (tdepth c) 1); [etransitivity; [exact IH|apply Nat.le_0_l]|].
      etransitivity; [exact IH|]. apply Nat.add_le_mono_r, Nat.mul_le_mono_r. lia. }
    assert (HL : need_list need cs + 1 <= List.length cs + ((M - 2) * (D - 1) + 2) /\ sum_list (map opn cs) <= List.length cs).
    { clear -HN. revert HN. generalize ((M - 2) * (D - 1)). intros K HN.
      induction HN as [|c cs Hc _ [IH1 IH2]]; cbn [need_list map sum_list List.length]; [lia|].
      fold (need_list need). pose proof (opn_le_1 c). lia. }
    replace (1 + M - 2) with (1 + (M - 2)) by lia. rewrite Nat.mul_add_distr_r.
    revert HL. generalize ((M - 2) * (D - 1)). intros K HL. lia.
Qed.
