(** Facts about the stable sort of Member.v. *)
From Verif Require Import Base BaseLemmas Member.
From Coq Require Import Sorted.

Lemma insert_by_perm {A} (cmp : A -> A -> comparison) x l : Permutation (x :: l) (insert_by cmp x l).
Proof.
  induction l as [|y l IH]; cbn; auto. destruct (is_less (cmp y x)); auto.
  rewrite perm_swap. constructor. exact IH.
Qed.
Lemma sort_by_perm {A} (cmp : A -> A -> comparison) l : Permutation l (sort_by cmp l).
Proof. induction l as [|x l IH]; cbn; auto. rewrite <- insert_by_perm. constructor. exact IH. Qed.

Lemma sort_by_length {A} (cmp : A -> A -> comparison) l : List.length (sort_by cmp l) = List.length l.
Proof. symmetry. apply Permutation_length, sort_by_perm. Qed.

Section sorted.
  Context {A : Type} (cmp : A -> A -> comparison) (P : A -> Prop).
  Definition not_less (a b : A) : Prop := is_less (cmp b a) = false.
  Hypothesis trans : forall x y z, P x -> P y -> P z -> not_less x y -> not_less y z -> not_less x z.
  Hypothesis asym : forall x y, P x -> P y -> is_less (cmp x y) = true -> not_less x y.

  Lemma insert_by_sorted x l : P x -> Forall P l -> StronglySorted not_less l -> StronglySorted not_less (insert_by cmp x l).
  Proof.
    intros Hx Hl Hs. induction Hs as [|y l Hs IH Hy]; cbn; [repeat constructor|].
    apply Forall_cons_iff in Hl as [Py Pl]. destruct (is_less (cmp y x)) eqn:E.
    - constructor; auto. rewrite <- insert_by_perm. constructor; auto.
    - constructor; [constructor; auto|]. constructor; [exact E|].
      rewrite Forall_forall in *. intros z Hz. apply (trans x y z); auto.
  Qed.

  Lemma sort_by_sorted l : Forall P l -> StronglySorted not_less (sort_by cmp l).
  Proof.
    induction l as [|x l IH]; intros H; cbn; [constructor|]. apply Forall_cons_iff in H as [Hx Hl].
    apply insert_by_sorted; auto. rewrite <- sort_by_perm. exact Hl.
  Qed.
End sorted.

Lemma sorted_split {A} (R : A -> A -> Prop) l1 l2 : StronglySorted R (l1 ++ l2) ->
  StronglySorted R l1 /\ StronglySorted R l2 /\ forall a b, In a l1 -> In b l2 -> R a b.
Proof.
  induction l1 as [|x l1 IH]; cbn; intros H.
  - repeat split; auto; [constructor|]. intros a b [].
  - inversion H as [|? ? Hs Hf]; subst. destruct (IH Hs) as (H1 & H2 & H3). apply Forall_app in Hf as [F1 F2].
    split; [constructor; auto|]. split; auto. intros a b [->|Ha] Hb; auto. rewrite Forall_forall in F2. auto.
Qed.
