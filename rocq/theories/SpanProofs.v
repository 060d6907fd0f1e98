(** Child ranges and positions of children. *)
From Verif Require Import Base BaseLemmas Node Tree NodeProofs.

(** Consecutive spans of the children, the first one starting at [start]. *)
Fixpoint spans (start : nat) (cs : list tree) : list (nat * nat) :=
  match cs with
  | [] => []
  | c :: cs' => (start, start + tsize c - 1) :: spans (start + tsize c) cs'
  end.

Lemma spans_length cs : forall st, List.length (spans st cs) = List.length cs.
Proof. induction cs; intros; cbn; auto. Qed.

Lemma spans_app a b : forall st, spans st (a ++ b) = spans st a ++ spans (st + sum_list (map tsize a)) b.
Proof.
  induction a as [|c a IH]; intros st; cbn; [now rewrite Nat.add_0_r|].
  rewrite IH. do 2 f_equal. f_equal. lia.
Qed.

(** A child of a subtree occurrence is a subtree occurrence. *)
Lemma subtree_at_child t i op l c r :
  subtree_at t i (TOp op (l ++ c :: r)) ->
  subtree_at t (i + 1 - tsize (TOp op (l ++ c :: r)) + sum_list (map tsize l) + tsize c - 1) c.
Proof.
  intros H. remember (TOp op (l ++ c :: r)) as s eqn:Es. induction H as [t|o l' c' r' i s H IH].
  - subst t.
    replace (tsize (TOp op (l ++ c :: r)) - 1 + 1 - tsize (TOp op (l ++ c :: r)) + sum_list (map tsize l) + tsize c - 1)
      with (sum_list (map tsize l) + (tsize c - 1)).
    2:{ pose proof (tsize_pos c). pose proof (tsize_pos (TOp op (l ++ c :: r))). lia. }
    constructor. constructor.
  - specialize (IH Es).
    assert (tsize s <= i + 1).
    { apply subtree_at_spec in H as [_ (pl & pr & _ & Hl)]. lia. }
    pose proof (tsize_pos c).
    replace (sum_list (map tsize l') + i + 1 - tsize s + sum_list (map tsize l) + tsize c - 1)
      with (sum_list (map tsize l') + (i + 1 - tsize s + sum_list (map tsize l) + tsize c - 1)) by lia.
    constructor. exact IH.
Qed.

Lemma child_ranges_from_spec t start cs :
  forall acc,
  (forall l c r, cs = l ++ c :: r -> subtree_at t (start + sum_list (map tsize l) + tsize c - 1) c) ->
  child_ranges_from (tsizes t) (List.length cs) (Z.of_nat (start + sum_list (map tsize cs)) - 1) acc
  = Ok (spans start cs ++ acc).
Proof.
  induction cs as [|c cs IH] using rev_ind; intros acc H.
  - reflexivity.
  - rewrite app_length, Nat.add_comm. cbn [List.length Nat.add].
    cbn [child_ranges_from]. rewrite map_app, sum_list_app. cbn [map sum_list].
    pose proof (tsize_pos c).
    destruct (Z.ltb_spec (Z.of_nat (start + (sum_list (map tsize cs) + (tsize c + 0))) - 1) 0); [lia|].
    specialize (H cs c [] eq_refl) as Hc.
    replace (Z.to_nat (Z.of_nat (start + (sum_list (map tsize cs) + (tsize c + 0))) - 1))
      with (start + sum_list (map tsize cs) + tsize c - 1) by lia.
    unfold index. rewrite (proj1 (subtree_at_spec _ _ _ Hc)). cbn [expect bind].
    destruct (Nat.leb_spec (tsize c) (start + sum_list (map tsize cs) + tsize c - 1 + 1)); [|lia].
    replace (start + sum_list (map tsize cs) + tsize c - 1 + 1 - tsize c) with (start + sum_list (map tsize cs)) by lia.
    rewrite IH.
    + rewrite spans_app. cbn [spans]. rewrite <- app_assoc. reflexivity.
    + intros l c' r ->. apply (H l c' (r ++ [c])). now rewrite <- app_assoc.
Qed.

Lemma child_ranges_flatten t i op cs :
  subtree_at t i (TOp op cs) ->
  child_ranges (tsizes t) i (List.length cs) = Ok (spans (i + 1 - tsize (TOp op cs)) cs).
Proof.
  intros H. unfold child_ranges.
  assert (Hle : tsize (TOp op cs) <= i + 1).
  { apply subtree_at_spec in H as [_ (pl & pr & _ & Hl)]. lia. }
  rewrite <- (app_nil_r (spans _ _)).
  replace (Z.of_nat i) with (Z.of_nat (i + 1 - tsize (TOp op cs) + sum_list (map tsize cs))).
  - apply child_ranges_from_spec. intros l c r ->. apply subtree_at_child. exact H.
  - cbn [tsize] in Hle |- *. lia.
Qed.

Lemma spans_nth cs : forall st k c, nth_error cs k = Some c ->
  nth_error (spans st cs) k = Some (st + sum_list (map tsize (firstn k cs)), st + sum_list (map tsize (firstn k cs)) + tsize c - 1).
Proof.
  induction cs as [|c cs IH]; intros st [|k] d H; try discriminate; cbn in H.
  - injection H as <-. cbn. rewrite Nat.add_0_r. reflexivity.
  - cbn [spans nth_error firstn map sum_list]. rewrite (IH _ _ _ H). do 2 f_equal; lia.
Qed.
