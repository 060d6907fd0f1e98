(** General lemmas on the vocabulary of Base.v. *)
From Verif Require Import Base.

Lemma bind_ok {A B} (r : res A) (f : A -> res B) b :
  bind r f = Ok b -> exists a, r = Ok a /\ f a = Ok b.
Proof. destruct r as [a| |]; cbn; intros H; try discriminate; eauto. Qed.

Lemma foldM_app {A S} (f : S -> A -> res S) l1 l2 s :
  foldM f (l1 ++ l2) s = bind (foldM f l1 s) (foldM f l2).
Proof.
  revert s; induction l1 as [|a l1 IH]; intros s; cbn; [reflexivity|].
  destruct (f s a); cbn; auto.
Qed.

Lemma mapM_ok_length {A B} (f : A -> res B) l l' :
  mapM f l = Ok l' -> List.length l' = List.length l.
Proof.
  revert l'; induction l as [|a l IH]; cbn; intros l' H.
  - injection H as <-; reflexivity.
  - apply bind_ok in H as (b & _ & H). apply bind_ok in H as (bs & H1 & H).
    injection H as <-. cbn. f_equal; auto.
Qed.

Lemma mapM_map {A B} (f : A -> res B) (g : A -> B) l :
  (forall a, In a l -> f a = Ok (g a)) -> mapM f l = Ok (map g l).
Proof.
  induction l as [|a l IH]; cbn; intros H; [reflexivity|].
  rewrite H by auto. cbn. rewrite IH by auto. reflexivity.
Qed.

Lemma mapM_nth {A B} (f : A -> res B) l l' :
  mapM f l = Ok l' -> forall i a, nth_error l i = Some a ->
  exists b, f a = Ok b /\ nth_error l' i = Some b.
Proof.
  revert l'; induction l as [|x l IH]; cbn; intros l' H i a Hi.
  - destruct i; discriminate.
  - apply bind_ok in H as (b & Hb & H). apply bind_ok in H as (bs & H1 & H).
    injection H as <-. destruct i as [|i]; cbn in *.
    + injection Hi as <-. eauto.
    + eauto.
Qed.

Lemma upd_length {A} (l : list A) i x : List.length (upd l i x) = List.length l.
Proof. revert i; induction l as [|y l IH]; intros [|i]; cbn; auto. Qed.

Lemma nth_error_upd_same {A} (l : list A) i x :
  i < List.length l -> nth_error (upd l i x) i = Some x.
Proof. revert i; induction l as [|y l IH]; intros [|i]; cbn; intros; try lia; auto. apply IH; lia. Qed.

Lemma nth_error_upd_other {A} (l : list A) i j x :
  i <> j -> nth_error (upd l i x) j = nth_error l j.
Proof. revert i j; induction l as [|y l IH]; intros [|i] [|j]; cbn; intros; try lia; auto. Qed.

Lemma upd_app_l {A} (l1 l2 : list A) i x :
  i < List.length l1 -> upd (l1 ++ l2) i x = upd l1 i x ++ l2.
Proof. revert i; induction l1 as [|y l1 IH]; intros [|i]; cbn; intros; try lia; auto. f_equal; apply IH; lia. Qed.

Lemma upd_middle {A} (l1 l2 : list A) y x :
  upd (l1 ++ y :: l2) (List.length l1) x = l1 ++ x :: l2.
Proof. induction l1 as [|z l1 IH]; cbn; [reflexivity|f_equal; auto]. Qed.

Lemma slice_ok {A} (l : list A) a n :
  a + n <= List.length l -> slice l a n = Ok (firstn n (skipn a l)).
Proof. unfold slice; intros H. destruct (Nat.leb_spec (a + n) (List.length l)); [reflexivity|lia]. Qed.

Lemma slice_inv {A} (l : list A) a n s :
  slice l a n = Ok s -> a + n <= List.length l /\ s = firstn n (skipn a l).
Proof.
  unfold slice. destruct (Nat.leb_spec (a + n) (List.length l)); intros E; try discriminate.
  injection E as <-; auto.
Qed.

Lemma slice_length {A} (l : list A) a n s : slice l a n = Ok s -> List.length s = n.
Proof. intros H; apply slice_inv in H as [H ->]. rewrite firstn_length, skipn_length. lia. Qed.

Lemma nth_error_firstn {A} (l : list A) n i : i < n -> nth_error (firstn n l) i = nth_error l i.
Proof.
  revert n i; induction l as [|x l IH]; intros [|n] [|i]; cbn; intros; try lia; auto.
  apply IH; lia.
Qed.

Lemma nth_error_skipn {A} (l : list A) n i : nth_error (skipn n l) i = nth_error l (n + i).
Proof. revert l; induction n as [|n IH]; intros [|x l]; cbn; auto. now destruct i. Qed.

Lemma nth_error_ext {A} (l1 l2 : list A) :
  (forall i, nth_error l1 i = nth_error l2 i) -> l1 = l2.
Proof.
  revert l2; induction l1 as [|x l1 IH]; intros [|y l2] H; auto.
  - specialize (H 0); discriminate.
  - specialize (H 0); discriminate.
  - f_equal.
    + specialize (H 0); cbn in H; congruence.
    + apply IH. intros i; apply (H (S i)).
Qed.

Lemma fold_right_and_Forall {A} (P : A -> Prop) (l : list A) :
  fold_right and True (map P l) <-> Forall P l.
Proof.
  induction l as [|a l IH]; cbn; split; auto.
  - intros [H1 H2]; constructor; tauto.
  - intros H; inversion H; subst; tauto.
Qed.

Lemma Forall2_map_eq {A B} (f : A -> B) l l' : Forall2 (fun a b => b = f a) l l' -> l' = map f l.
Proof. induction 1; cbn; congruence. Qed.

Lemma list_max0_fold (l : list nat) a : fold_left Nat.max l a = Nat.max a (fold_right Nat.max 0 l).
Proof. revert a; induction l as [|x l IH]; intros a; cbn; [lia|]. rewrite IH. lia. Qed.

Lemma map_eq_app' {A B} (f : A -> B) l l1 l2 :
  map f l = l1 ++ l2 -> exists k1 k2, l = k1 ++ k2 /\ map f k1 = l1 /\ map f k2 = l2.
Proof.
  revert l; induction l1 as [|x l1 IH]; intros l H; cbn in *.
  - exists [], l; auto.
  - destruct l as [|y l]; try discriminate. injection H as <- H.
    apply IH in H as (k1 & k2 & -> & <- & <-). exists (y :: k1), k2; auto.
Qed.

Lemma repeat_nth_error {A} (x : A) n i : i < n -> nth_error (repeat x n) i = Some x.
Proof. revert i; induction n as [|n IH]; intros [|i] H; cbn; try lia; auto. apply IH; lia. Qed.

Lemma Forall2_len {A B} (R : A -> B -> Prop) l l' : Forall2 R l l' -> List.length l = List.length l'.
Proof. induction 1; cbn; congruence. Qed.

Lemma firstn_S_nth_error {A} (l : list A) k x : nth_error l k = Some x -> firstn (S k) l = firstn k l ++ [x].
Proof.
  revert k. induction l as [|y l IH]; intros [|k] H; try discriminate.
  - injection H as ->. reflexivity.
  - cbn [firstn app]. f_equal. apply IH. exact H.
Qed.

Lemma Forall2_length {A B} (R : A -> B -> Prop) l1 l2 : Forall2 R l1 l2 -> List.length l1 = List.length l2.
Proof. induction 1; cbn; auto. Qed.
