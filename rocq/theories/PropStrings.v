(** Property C40: the printed form determines the expression. *)
From Coq Require Import String Ascii DecimalString DecimalNat.
From Verif Require Import Base BaseLemmas Node Tree NodeProofs Registry Strings Instances.
From Verif Require Builtin.
From Coq Require Import List.
Import ListNotations.
Local Open Scope list_scope.
Local Open Scope nat_scope.

(** ** Specification *)

(** Open minus closed brackets. *)
Fixpoint depth (s : text) : Z :=
  match s with
  | [] => 0
  | c :: s' => (if Ascii.eqb c "(" then 1 else if Ascii.eqb c ")" then -1 else 0) + depth s'
  end%Z.
(** Brackets match: never more closed than open, and as many in the end. *)
Definition balanced (s : text) : Prop := depth s = 0%Z /\ forall p r, s = p ++ r -> (0 <= depth p)%Z.
(** The first and the last character are a matching pair of brackets around [m]. *)
Definition enclosed (s m : text) : Prop :=
  s = text_of "(" ++ m ++ text_of ")" /\ depth s = 0%Z /\ forall p r, s = p ++ r -> p <> [] -> r <> [] -> (0 < depth p)%Z.

(** A word: not empty, without brackets, commas and blanks. *)
Definition plain (c : ascii) : Prop := c <> "("%char /\ c <> ")"%char /\ c <> ","%char /\ c <> " "%char.
Definition word (s : text) : Prop := s <> [] /\ Forall plain s.

(** The tree with the texts of its constants. *)
Inductive ptree : Type :=
| PVar (feature : nat)
| PConst (s : text)
| POp (op : nat) (children : list ptree).
Fixpoint printed_tree {T} (show : T -> text) (cs : list T) (t : tree) : ptree :=
  match t with
  | TVar f => PVar f
  | TConst i => PConst (match nth_error cs i with Some c => show c | None => [] end)
  | TOp o ch => POp o (map (printed_tree show cs) ch)
  end.

(** What an operator prints as. *)
Definition symbol (tb : optable) (pretty : bool) (op : opid) : text :=
  text_of (if pretty then op_display tb op else match op_infix tb op with Some s => s | None => op_name tb op end).
(** Printed between its arguments. *)
Definition infix_op (tb : optable) (op : opid) : Prop := op_infix tb op <> None /\ 1 < fst op.

(** Names that can be told apart: words; different variables print differently, and never like a constant; two operators of the same arity that are printed
    the same way have different symbols. *)
Record lexicon {T} (tb : optable) (show : T -> text) (names : option (list text)) (pretty : bool) (nf : nat) (known : nat -> nat -> bool) : Prop := {
  lx_var : forall f, f < nf -> word (default_string_variable names f);
  lx_const : forall c, word (show c);
  lx_op : forall a o, known a o = true -> word (symbol tb pretty (a, o));
  lx_vars : forall f g, f < nf -> g < nf -> default_string_variable names f = default_string_variable names g -> f = g;
  lx_apart : forall f c, f < nf -> default_string_variable names f <> show c;
  lx_ops : forall a o o', known a o = true -> known a o' = true -> (infix_op tb (a, o) <-> infix_op tb (a, o')) ->
    symbol tb pretty (a, o) = symbol tb pretty (a, o') -> o = o' }.

(** ** Stripping *)
Lemma depth_app a b : depth (a ++ b) = (depth a + depth b)%Z.
Proof. induction a as [|c a IH]; cbn [depth app]; [lia|]. rewrite IH. lia. Qed.

(** [encloses_all] finds whether the first return to depth 0 is at the last byte. *)
Lemma encloses_spec : forall s i d len, (0 < d)%Z -> len = i + List.length s ->
  encloses_all s i d len = true <-> ((d + depth s = 0)%Z /\ forall p r, s = p ++ r -> r <> [] -> (0 < d + depth p)%Z).
Proof.
  induction s as [|c s IH]; intros i d len Hd Hl; cbn [encloses_all].
  - cbn. split; [discriminate|]. intros [H _]. lia.
  - cbn [List.length] in Hl. cbn [depth]. destruct (Ascii.eqb c "(") eqn:E1.
    + rewrite (IH (S i) (d + 1)%Z len) by lia. split; intros [H1 H2]; (split; [lia|]).
      * intros [|c' p] r Hs Hr; [cbn; lia|]. cbn in Hs. injection Hs as <- ->. cbn [depth]. rewrite E1. specialize (H2 p r eq_refl Hr). lia.
      * intros p r -> Hr. specialize (H2 (c :: p) r eq_refl Hr). cbn [depth] in H2. rewrite E1 in H2. lia.
    + destruct (Ascii.eqb c ")") eqn:E2.
      * destruct (Z.eqb_spec (d - 1) 0) as [Ed|Ed].
        -- destruct s as [|c2 s].
           ++ cbn [List.length depth] in *. split; [intros _|intros _; apply Nat.eqb_eq; lia].
              split; [lia|]. intros [|c' p] r Hs Hr; [cbn; lia|]. cbn in Hs. injection Hs as <- Hs. symmetry in Hs. apply app_eq_nil in Hs as [_ ->]. congruence.
           ++ split; [intros H; apply Nat.eqb_eq in H; cbn in Hl; lia|]. intros [_ H2]. specialize (H2 [c] (c2 :: s) eq_refl ltac:(discriminate)). cbn [depth] in H2. rewrite E1, E2 in H2. lia.
        -- rewrite (IH (S i) (d - 1)%Z len) by lia. split; intros [H1 H2]; (split; [lia|]).
           ++ intros [|c' p] r Hs Hr; [cbn; lia|]. cbn in Hs. injection Hs as <- ->. cbn [depth]. rewrite E1, E2. specialize (H2 p r eq_refl Hr). lia.
           ++ intros p r -> Hr. specialize (H2 (c :: p) r eq_refl Hr). cbn [depth] in H2. rewrite E1, E2 in H2. lia.
      * rewrite (IH (S i) d len) by lia. split; intros [H1 H2]; (split; [lia|]).
        -- intros [|c' p] r Hs Hr; [cbn; lia|]. cbn in Hs. injection Hs as <- ->. cbn [depth]. rewrite E1, E2. specialize (H2 p r eq_refl Hr). lia.
        -- intros p r -> Hr. specialize (H2 (c :: p) r eq_refl Hr). cbn [depth] in H2. rewrite E1, E2 in H2. lia.
Qed.
Lemma wrap_split (s : text) : 2 <= List.length s -> hd " "%char s = "("%char -> last s " "%char = ")"%char -> s = text_of "(" ++ removelast (tl s) ++ text_of ")".
Proof.
  destruct s as [|c s]; cbn [List.length]; [lia|]. intros Hl Hh Hlast. cbn [hd] in Hh. subst c. cbn [tl]. change (text_of "(") with ["("%char]. change (text_of ")") with [")"%char].
  cbn [app]. f_equal. destruct s as [|c2 s]; [cbn in Hl; lia|]. rewrite (app_removelast_last (l := c2 :: s) " "%char) at 1 by discriminate.
  f_equal. f_equal. rewrite <- Hlast. reflexivity.
Qed.
(** One round of the loop: it strips exactly the enclosed texts. *)
Lemma strip_step fuel s : (exists m, enclosed s m /\ strip_loop (S fuel) s = strip_loop fuel m) \/ ((forall m, ~ enclosed s m) /\ strip_loop (S fuel) s = s).
Proof.
  cbn [strip_loop]. destruct (Nat.ltb_spec (List.length s) 2) as [H2|H2]; cbn [orb].
  { right. split; auto. intros m (-> & _). rewrite !app_length in H2. cbn in H2. lia. }
  destruct s as [|c s]; [cbn in H2; lia|]. destruct (Ascii.eqb c "(") eqn:E1; cbn [orb negb]; [|right; split; auto; intros m (Hs & _); injection Hs as -> _; discriminate].
  destruct (Ascii.eqb (last (c :: s) " "%char) ")") eqn:E2; cbn [orb negb].
  - apply Ascii.eqb_eq in E1, E2. assert (Hw := wrap_split (c :: s) H2 E1 E2). set (m := removelast (tl (c :: s))) in *.
    destruct (encloses_all (c :: s) 0 0 (List.length (c :: s))) eqn:Ee; [left; exists m; split; auto|right; split; auto].
    + cbn [encloses_all] in Ee. rewrite E1, Ascii.eqb_refl in Ee. apply encloses_spec in Ee as [D1 D2]; [|lia|cbn; lia].
      split; auto. split; [cbn [depth]; rewrite E1, Ascii.eqb_refl; lia|]. intros [|c' p] r Hs Hp Hr; [congruence|]. cbn in Hs. injection Hs as <- ->. specialize (D2 p r eq_refl Hr).
      cbn [depth]. rewrite E1, Ascii.eqb_refl. lia.
    + intros m' (_ & D1 & D2). enough (encloses_all (c :: s) 0 0 (List.length (c :: s)) = true) by congruence. cbn [encloses_all]. rewrite E1, Ascii.eqb_refl. apply encloses_spec; [lia|cbn; lia|].
      split; [cbn [depth] in D1; rewrite E1, Ascii.eqb_refl in D1; lia|]. intros p r -> Hr. specialize (D2 (c :: p) r eq_refl ltac:(discriminate) Hr). cbn [depth] in D2. rewrite E1, Ascii.eqb_refl in D2. lia.
  - right. split; auto. intros m (Hs & _). rewrite Hs in E2. rewrite app_assoc in E2. change (text_of ")") with [")"%char] in E2. rewrite last_last in E2. discriminate.
Qed.

(** Peeling off pairs of brackets that enclose everything. *)
Inductive peeled : text -> text -> Prop :=
| peel_none s : peeled s s
| peel_pair s m r : enclosed s m -> peeled m r -> peeled s r.

Lemma strip_peeled : forall fuel s, List.length s <= fuel -> peeled s (strip_loop fuel s) /\ forall m, ~ enclosed (strip_loop fuel s) m.
Proof.
  induction fuel as [|fuel IH]; intros s Hl.
  - cbn. split; [constructor|]. intros m (-> & _). rewrite !app_length in Hl. cbn in Hl. lia.
  - destruct (strip_step fuel s) as [(m & He & ->)|(Hn & ->)]; [|split; [constructor|auto]].
    assert (List.length m <= fuel). { destruct He as (-> & _). rewrite !app_length in Hl. cbn in Hl. lia. }
    destruct (IH m H) as [H1 H2]. split; auto. econstructor; eauto.
Qed.

(** Stripping removes only pairs of brackets that enclose the whole text, and all of them, for any text whatever. *)
Theorem C40_strip : forall s, peeled s (strip_outer_parens s) /\ forall m, ~ enclosed (strip_outer_parens s) m.
Proof. intros s. apply strip_peeled. auto. Qed.

Lemma enclosed_inj s m m' : enclosed s m -> enclosed s m' -> m = m'.
Proof. intros (-> & _) (H & _). injection H as H. apply app_inj_tail in H. tauto. Qed.
Lemma strip_none s : (forall m, ~ enclosed s m) -> strip_outer_parens s = s.
Proof. intros Hn. destruct (C40_strip s) as [H _]. remember (strip_outer_parens s) as r. destruct H as [s|s m r He _]; auto. exfalso. eapply Hn; eauto. Qed.
Lemma strip_once s m : enclosed s m -> (forall m', ~ enclosed m m') -> strip_outer_parens s = m.
Proof.
  intros He Hn. destruct (C40_strip s) as [H H']. remember (strip_outer_parens s) as r eqn:Er. clear Er. destruct H as [s|s m1 r He1 Hp]; [exfalso; eapply H'; eauto|].
  rewrite (enclosed_inj s m1 m) in Hp by auto. destruct Hp as [m|m m2 r He2 _]; auto. exfalso. eapply Hn; eauto.
Qed.

(** ** The grammar of printed expressions *)
Section Print.
Context {T : Type} (tb : optable) (show : T -> text) (names : option (list text)) (pretty : bool) (cs : list T).

Definition infixb (op : opid) : bool := (match op_infix tb op with Some _ => true | None => false end) && (1 <? fst op).

(** An operator with an infix symbol stands between its arguments, in brackets unless it is the whole text or a whole argument in a list;
    any other is written before the list of its arguments. *)
Fixpoint print (whole : bool) (t : tree) : text :=
  match t with
  | TVar f => default_string_variable names f
  | TConst i => match nth_error cs i with Some c => show c | None => [] end
  | TOp o ch =>
      let sym := symbol tb pretty (List.length ch, o) in
      if infixb (List.length ch, o) then
        let body := join (text_of " " ++ sym ++ text_of " ") (map (print false) ch) in
        if whole then body else text_of "(" ++ body ++ text_of ")"
      else sym ++ text_of "(" ++ join (text_of ", ") (map (print true) ch) ++ text_of ")"
  end.

Lemma infixb_iff op : infixb op = true <-> infix_op tb op.
Proof.
  unfold infixb, infix_op. rewrite andb_true_iff, Nat.ltb_lt. destruct (op_infix tb op); [|split; [intros [H _]; discriminate|intros [H _]; congruence]].
  split; intros [_ H]; split; auto; discriminate.
Qed.

(** Balanced texts. *)
Lemma balanced_nil : balanced [].
Proof. split; auto. intros p r H. symmetry in H. apply app_eq_nil in H as [-> _]. cbn. lia. Qed.
Lemma balanced_app a b : balanced a -> balanced b -> balanced (a ++ b).
Proof.
  intros [A1 A2] [B1 B2]. split; [rewrite depth_app; lia|]. intros p r H. apply app_eq_app in H as (l & [[-> ->]|[-> ->]]).
  - exact (A2 p l eq_refl).
  - rewrite depth_app. specialize (B2 l r eq_refl). lia.
Qed.
Lemma word_balanced s : Forall (fun c => c <> "("%char /\ c <> ")"%char) s -> balanced s.
Proof.
  intros H. assert (D : forall s, Forall (fun c => c <> "("%char /\ c <> ")"%char) s -> depth s = 0%Z).
  { induction 1 as [|c s1 [H1 H2] _ IH]; auto. cbn [depth]. destruct (Ascii.eqb_spec c "("); [congruence|]. destruct (Ascii.eqb_spec c ")"); [congruence|]. lia. }
  split; auto. intros p r ->. apply Forall_app in H as [H _]. rewrite D; auto. lia.
Qed.
Lemma balanced_enclosed m : balanced m -> enclosed (text_of "(" ++ m ++ text_of ")") m.
Proof.
  intros [B1 B2]. split; auto. split; [rewrite !depth_app, B1; reflexivity|].
  intros [|c p] r H Hp Hr; [congruence|]. injection H as <- H. cbn [depth]. rewrite Ascii.eqb_refl.
  destruct (exists_last Hr) as (r' & x & ->). rewrite app_assoc in H. apply app_inj_tail in H as [H _]. specialize (B2 p r' H). lia.
Qed.
Lemma balanced_wrap m : balanced m -> balanced (text_of "(" ++ m ++ text_of ")").
Proof.
  intros Hm. pose proof (balanced_enclosed m Hm) as (_ & D1 & D2). split; auto. intros p r H.
  destruct p as [|c p]; [cbn; lia|]. destruct r as [|x r].
  - rewrite app_nil_r in H. rewrite <- H, D1. lia.
  - specialize (D2 (c :: p) (x :: r) H ltac:(discriminate) ltac:(discriminate)). lia.
Qed.
Lemma balanced_join sep l : balanced sep -> Forall balanced l -> balanced (join sep l).
Proof.
  intros Hs. induction 1 as [|x l Hx _ IH]; [apply balanced_nil|]. cbn [join]. destruct l; auto. apply balanced_app; auto. apply balanced_app; auto.
Qed.

Context (nf D : nat) (known : nat -> nat -> bool) (Hlex : lexicon tb show names pretty nf known).
Local Notation nc := (List.length cs).
Definition good (t : tree) : Prop := tree_ok D nf nc known t.

Lemma word_nopar s : word s -> Forall (fun c => c <> "("%char /\ c <> ")"%char) s.
Proof. intros [_ H]. eapply Forall_impl; [|exact H]. intros c (H1 & H2 & _). auto. Qed.
Lemma sep_balanced s : word s -> balanced (text_of " " ++ s ++ text_of " ").
Proof.
  intros H. apply word_balanced. apply word_nopar in H. repeat (apply Forall_app; split); auto; repeat constructor; discriminate.
Qed.
Lemma fold_and_map (P : tree -> Prop) l : fold_right and True (map P l) <-> Forall P l.
Proof. induction l as [|x l IH]; cbn; [split; auto|]. rewrite IH. split; [intros [H1 H2]; constructor; auto|intros H; inversion H; auto]. Qed.
Lemma leaf_const i : i < nc -> exists c, nth_error cs i = Some c.
Proof. intros H. destruct (nth_error cs i) eqn:E; eauto. apply nth_error_None in E. lia. Qed.
Lemma print_balanced t : good t -> forall w, balanced (print w t).
Proof.
  unfold good. induction t as [f|i|o ch IH] using tree_ind'; cbn [tree_ok print]; intros H w.
  - apply word_balanced, word_nopar, (lx_var _ _ _ _ _ _ Hlex). auto.
  - destruct (leaf_const i H) as (c & ->). apply word_balanced, word_nopar, (lx_const _ _ _ _ _ _ Hlex).
  - destruct H as (_ & Hk & Hch). apply fold_and_map in Hch. pose proof (lx_op _ _ _ _ _ _ Hlex _ _ Hk) as Hw.
    assert (Hall : forall w, Forall balanced (map (print w) ch)).
    { intros w'. rewrite Forall_map. rewrite Forall_forall in *. intros t Ht. apply (IH t Ht). auto. }
    destruct (infixb _).
    + assert (Hb := balanced_join _ _ (sep_balanced _ Hw) (Hall false)). destruct w; auto. apply balanced_wrap; auto.
    + apply balanced_app; [apply word_balanced, word_nopar, Hw|]. apply balanced_wrap. apply balanced_join; auto.
      apply word_balanced. repeat constructor; discriminate.
Qed.
Lemma print_nonempty t w : good t -> print w t <> [].
Proof.
  unfold good. revert w. induction t as [f|i|o ch IH] using tree_ind'; cbn [tree_ok print]; intros w H.
  - apply (lx_var _ _ _ _ _ _ Hlex). auto.
  - destruct (leaf_const i H) as (c & ->). apply (lx_const _ _ _ _ _ _ Hlex).
  - destruct H as (Ha & Hk & Hch). apply fold_and_map in Hch. pose proof (lx_op _ _ _ _ _ _ Hlex _ _ Hk) as [Hw _].
    destruct (infixb _).
    + destruct w; [|discriminate]. destruct ch as [|t ch]; [cbn in Ha; lia|]. inversion Hch; subst. inversion IH; subst. cbn [map join].
      specialize (H3 false H1). destruct (map _ ch); auto. intros E. apply app_eq_nil in E as [E _]. auto.
    + intros E. apply app_eq_nil in E as [E _]. auto.
Qed.

(** The text of a whole expression is not enclosed in brackets. *)
Lemma whole_not_enclosed t : good t -> forall m, ~ enclosed (print true t) m.
Proof.
  unfold good. destruct t as [f|i|o ch]; cbn [tree_ok print]; intros H m.
  - intros (E & _). destruct (lx_var _ _ _ _ _ _ Hlex f H) as [_ Hw]. rewrite E in Hw. inversion Hw as [|? ? (H1 & _)]; subst. apply H1; reflexivity.
  - destruct (leaf_const i H) as (c & ->). intros (E & _). destruct (lx_const _ _ _ _ _ _ Hlex c) as [_ Hw]. rewrite E in Hw. inversion Hw as [|? ? (H1 & _)]; subst. apply H1; reflexivity.
  - destruct H as (Ha & Hk & Hch). apply fold_and_map in Hch. pose proof (lx_op _ _ _ _ _ _ Hlex _ _ Hk) as [Hw1 Hw2]. destruct (infixb _) eqn:Ei.
    + apply infixb_iff in Ei as [_ Ei]. cbn in Ei. destruct ch as [|t1 [|t2 ch]]; [cbn in Ei; lia|cbn in Ei; lia|]. inversion Hch; subst. cbn [map join].
      intros (_ & _ & E). specialize (E (print false t1) _ eq_refl (print_nonempty t1 false H1) ltac:(discriminate)).
      destruct (print_balanced t1 H1 false) as [D0 _]. lia.
    + intros (E & _). destruct (symbol tb pretty (List.length ch, o)) as [|c s]; [congruence|]. injection E as -> _. inversion Hw2 as [|? ? (H1 & _)]; subst. apply H1; reflexivity.
Qed.
Lemma strip_print t : good t -> strip_outer_parens (print false t) = print true t.
Proof.
  intros H. pose proof (whole_not_enclosed t H) as Hn. pose proof (print_balanced t H true) as Hb. destruct t as [f|i|o ch]; cbn [print] in *; try (apply strip_none; exact Hn).
  destruct (infixb _); [|apply strip_none; exact Hn]. apply strip_once; auto. apply balanced_enclosed. auto.
Qed.

(** What the code computes. *)
Lemma sequence_ok {A} (l : list (res A)) (v : list A) : Forall2 (fun r x => r = Ok x) l v -> sequence l = Ok v.
Proof. induction 1 as [|r x l v -> _ IH]; cbn; auto. rewrite IH. reflexivity. Qed.
Lemma string_tree_print e t : nodes e = flatten t -> consts e = cs -> good t -> string_tree tb show names pretty e = Ok (print true t).
Proof.
  intros En Ec Hg. unfold string_tree, tree_mapreduce, tree_mapreduce_with_stack. rewrite En, tree_mapreduce_impl_flatten. cbn [bind].
  match goal with |- context [tree_fold ?a ?b ?c t] => set (fl := a); set (fb := b); set (op := c) end.
  assert (Hf : forall t, good t -> tree_fold fl fb op t = Ok (print false t)).
  { clear - Hlex Ec. unfold good. induction t as [f|i|o ch IH] using tree_ind'; cbn [tree_ok tree_fold print]; intros H.
    - reflexivity.
    - unfold fl. rewrite Ec. unfold index. destruct (leaf_const i H) as (c & ->). reflexivity.
    - destruct H as (Ha & Hk & Hch). apply fold_and_map in Hch. cbn [fb]. unfold op at 1.
      rewrite (sequence_ok _ (map (print false) ch)).
      + cbn [bind]. rewrite map_length. cbn [fst]. rewrite Nat.eqb_refl. cbn [assert_ bind]. f_equal. unfold combine_op. fold (symbol tb pretty (List.length ch, o)). cbn [fst].
        fold (infixb (List.length ch, o)). change (1 <? List.length ch) with (1 <? fst (List.length ch, o)). fold (infixb (List.length ch, o)).
        destruct (infixb _); auto. rewrite map_map. do 4 f_equal. apply map_ext_in. intros c Hc. rewrite Forall_forall in Hch. apply strip_print. apply Hch. auto.
      + clear - IH Hch. induction Hch as [|t l Ht _ IH2]; [constructor|]. inversion IH; subst. constructor; auto. }
  rewrite Hf by auto. cbn [bind]. rewrite strip_print by auto. reflexivity.
Qed.

(** ** Reading back *)
Definition brk (s : text) : Prop := match s with [] => True | c :: _ => ~ plain c end.
Definition stop (s : text) : Prop := match s with [] => True | c :: _ => c = " "%char \/ c = ")"%char \/ c = ","%char end.
Definition stop_list (s : text) : Prop := match s with [] => True | c :: _ => c = ")"%char \/ c = ","%char end.
Lemma stop_list_stop s : stop_list s -> stop s.
Proof. destruct s; cbn; tauto. Qed.
Lemma stop_brk s : stop s -> brk s.
Proof. destruct s as [|c s]; cbn; auto. intros [->|[->| ->]] (H1 & H2 & H3 & H4); congruence. Qed.

Lemma word_cut w1 w2 s1 s2 : Forall plain w1 -> Forall plain w2 -> brk s1 -> brk s2 -> w1 ++ s1 = w2 ++ s2 -> w1 = w2 /\ s1 = s2.
Proof.
  intros H1. revert w2. induction H1 as [|c w1 Hc _ IH]; intros w2 H2 B1 B2 E.
  - destruct H2 as [|c2 w2 Hc2 _]; auto. cbn in E. subst s1. cbn in B1. tauto.
  - destruct H2 as [|c2 w2 Hc2 H2]; cbn in E; [subst s2; cbn in B2; tauto|]. injection E as <- E. destruct (IH w2 H2 B1 B2 E) as [-> ->]. auto.
Qed.
Local Notation pt := (printed_tree show cs).
Definition reads (w : bool) (stops : text -> Prop) (t1 : tree) : Prop := forall t2 s1 s2, good t2 -> stops s1 -> stops s2 ->
  print w t1 ++ s1 = print w t2 ++ s2 -> pt t1 = pt t2 /\ s1 = s2.

Lemma join_cons sep x y l : join sep (x :: y :: l) = x ++ sep ++ join sep (y :: l).
Proof. reflexivity. Qed.
Lemma join_one sep x : join sep [x] = x.
Proof. reflexivity. Qed.
Lemma read_list : forall l1 l2 s1 s2, l1 <> [] -> l2 <> [] -> Forall (reads true stop_list) l1 -> Forall good l2 ->
  join (text_of ", ") (map (print true) l1) ++ text_of ")" ++ s1 = join (text_of ", ") (map (print true) l2) ++ text_of ")" ++ s2 -> map pt l1 = map pt l2 /\ s1 = s2.
Proof.
  induction l1 as [|a l1 IH]; intros l2 s1 s2 N1 N2 H1 H2 E; [congruence|]. destruct l2 as [|b l2]; [congruence|].
  inversion H1 as [|? ? Ha H1']; subst. inversion H2 as [|? ? Hb H2']; subst. cbn [map] in *.
  destruct l1 as [|a2 l1], l2 as [|b2 l2]; cbn [map] in *; rewrite ?join_cons, ?join_one in E; rewrite <- ?app_assoc in E.
  - apply Ha in E as [-> E]; auto; try (cbn; tauto). injection E as ->. auto.
  - apply Ha in E as [_ E]; auto; try (cbn; tauto). discriminate.
  - apply Ha in E as [_ E]; auto; try (cbn; tauto). discriminate.
  - apply Ha in E as [-> E]; auto; try (cbn; tauto). apply app_inv_head in E. apply (IH (b2 :: l2)) in E as [E1 ->]; auto; try discriminate. cbn [map] in E1. rewrite E1. auto.
Qed.
Lemma read_infix w1 w2 : word w1 -> word w2 -> forall l1 l2 s1 s2, l1 <> [] -> l2 <> [] -> Forall (reads false stop) l1 -> Forall good l2 -> stop_list s1 -> stop_list s2 ->
  join (text_of " " ++ w1 ++ text_of " ") (map (print false) l1) ++ s1 = join (text_of " " ++ w2 ++ text_of " ") (map (print false) l2) ++ s2 ->
  map pt l1 = map pt l2 /\ s1 = s2 /\ (2 <= List.length l1 -> w1 = w2).
Proof.
  intros [_ W1] [_ W2]. induction l1 as [|a l1 IH]; intros l2 s1 s2 N1 N2 H1 H2 S1 S2 E; [congruence|]. destruct l2 as [|b l2]; [congruence|].
  inversion H1 as [|? ? Ha H1']; subst. inversion H2 as [|? ? Hb H2']; subst. cbn [map] in *.
  destruct l1 as [|a2 l1], l2 as [|b2 l2]; cbn [map] in *; rewrite ?join_cons, ?join_one in E; rewrite <- ?app_assoc in E.
  - apply Ha in E as [-> ->]; auto using stop_list_stop. split; auto. split; auto. cbn. lia.
  - apply Ha in E as [_ E]; auto using stop_list_stop; [|cbn; tauto]. subst s1. cbn in S1. intuition discriminate.
  - apply Ha in E as [_ E]; auto using stop_list_stop; [|cbn; tauto]. subst s2. cbn in S2. intuition discriminate.
  - apply Ha in E as [-> E]; auto; try (cbn; tauto). apply app_inv_head in E.
    assert (B : forall x, brk (text_of " " ++ x)) by (intros x (_ & _ & _ & H); apply H; reflexivity).
    apply word_cut in E as [-> E]; auto. apply app_inv_head in E. apply (IH (b2 :: l2)) in E as (E1 & -> & _); auto; try discriminate. cbn [map] in E1. rewrite E1. auto.
Qed.

Lemma head_plain w r x : word w -> w ++ r <> "("%char :: x.
Proof. intros [H1 H2] E. destruct H2 as [|c w (Hc & _) _]; [congruence|]. injection E as -> _. congruence. Qed.

Definition text_leaf (t : tree) : option text :=
  match t with TVar f => Some (default_string_variable names f) | TConst i => Some (match nth_error cs i with Some c => show c | None => [] end) | TOp _ _ => None end.
Lemma leaf_word t x : good t -> text_leaf t = Some x -> word x /\ forall w, print w t = x.
Proof.
  unfold good. destruct t as [f|i|o ch]; cbn; intros H [= <-]; (split; [|reflexivity]).
  - apply (lx_var _ _ _ _ _ _ Hlex). auto.
  - destruct (leaf_const i H) as (c & ->). apply (lx_const _ _ _ _ _ _ Hlex).
Qed.
Lemma leaf_inj t1 t2 x : good t1 -> good t2 -> text_leaf t1 = Some x -> text_leaf t2 = Some x -> pt t1 = pt t2.
Proof.
  unfold good. destruct t1 as [f|i|o ch], t2 as [g|j|o2 ch2]; cbn [tree_ok text_leaf printed_tree]; intros H1 H2 [= <-] [= E]; try discriminate.
  - f_equal. symmetry. apply (lx_vars _ _ _ _ _ _ Hlex); auto.
  - destruct (leaf_const j H2) as (c & Hc). rewrite Hc in *. exfalso. apply (lx_apart _ _ _ _ _ _ Hlex f c); auto.
  - destruct (leaf_const i H1) as (c & Hc). rewrite Hc in *. exfalso. apply (lx_apart _ _ _ _ _ _ Hlex g c); auto.
  - f_equal. auto.
Qed.

(** The three kinds of expressions. *)
Inductive kind (t : tree) : Prop :=
| KLeaf x : text_leaf t = Some x -> kind t
| KFun o ch : t = TOp o ch -> infixb (List.length ch, o) = false -> kind t
| KInfix o ch : t = TOp o ch -> infixb (List.length ch, o) = true -> kind t.
Lemma kinds t : kind t.
Proof. destruct t as [f|i|o ch]; [eapply KLeaf; reflexivity|eapply KLeaf; reflexivity|]. destruct (infixb (List.length ch, o)) eqn:E; [eapply KInfix; eauto|eapply KFun; eauto]. Qed.
Lemma good_op o ch : good (TOp o ch) -> ch <> [] /\ Forall good ch /\ word (symbol tb pretty (List.length ch, o)) /\ known (List.length ch) o = true.
Proof.
  intros (H1 & H2 & H3). apply fold_and_map in H3. repeat split; auto; try (apply (lx_op _ _ _ _ _ _ Hlex _ _ H2)). intros ->. cbn in H1. lia.
Qed.
Lemma op_inj o o2 ch ch2 : good (TOp o ch) -> good (TOp o2 ch2) -> infixb (List.length ch, o) = infixb (List.length ch2, o2) -> map pt ch = map pt ch2 ->
  symbol tb pretty (List.length ch, o) = symbol tb pretty (List.length ch2, o2) -> pt (TOp o ch) = pt (TOp o2 ch2).
Proof.
  intros H1 H2 Hi Hm Hs. cbn. rewrite Hm. f_equal. assert (Hl : List.length ch = List.length ch2) by (rewrite <- (map_length pt ch), Hm; apply map_length).
  apply good_op in H1 as (_ & _ & _ & K1). apply good_op in H2 as (_ & _ & _ & K2). rewrite Hl in *. apply (lx_ops _ _ _ _ _ _ Hlex (List.length ch2)); auto.
  rewrite <- !infixb_iff, Hi. tauto.
Qed.

Lemma print_fun o ch w : infixb (List.length ch, o) = false ->
  print w (TOp o ch) = symbol tb pretty (List.length ch, o) ++ text_of "(" ++ join (text_of ", ") (map (print true) ch) ++ text_of ")".
Proof. intros E. cbn [print]. rewrite E. reflexivity. Qed.
Lemma print_infix o ch w : infixb (List.length ch, o) = true ->
  print w (TOp o ch) = let body := join (text_of " " ++ symbol tb pretty (List.length ch, o) ++ text_of " ") (map (print false) ch) in if w then body else text_of "(" ++ body ++ text_of ")".
Proof. intros E. cbn [print]. rewrite E. reflexivity. Qed.

Lemma read_back t1 : good t1 -> reads false stop t1 /\ reads true stop_list t1.
Proof.
  induction t1 as [f|i|o ch IH] using tree_ind'; intros G1.
  1,2: assert (HP : reads false stop (ltac:(match goal with H : good ?t |- _ => exact t end))).
  1,3: intros t2 s1 s2 G2 S1 S2 E; destruct (leaf_word _ _ G1 eq_refl) as [L1 P1]; rewrite (P1 false) in E; destruct (kinds t2) as [x2 K|o2 ch2 -> K|o2 ch2 -> K];
    [destruct (leaf_word _ _ G2 K) as [L2 P2]; rewrite (P2 false) in E; apply word_cut in E as [E ->]; auto using stop_brk; try (apply L1); try (apply L2);
       split; auto; eapply leaf_inj; eauto; cbn [text_leaf]; congruence
    |exfalso; rewrite print_fun in E by auto; apply good_op in G2 as (_ & _ & [_ W2] & _); rewrite <- app_assoc in E; destruct L1 as [_ L1];
       apply word_cut in E as [_ E]; auto using stop_brk; [subst s1; cbn in S1; intuition discriminate|intros (H & _); apply H; reflexivity]
    |exfalso; rewrite print_infix in E by auto; cbv zeta iota in E; rewrite <- app_assoc in E; eapply head_plain; [exact L1|exact E]].
  1,2: split; [exact HP|]; intros t2 s1 s2 G2 S1 S2 E; destruct (kinds t2) as [x2 K|o2 ch2 -> K|o2 ch2 -> K];
    [destruct (leaf_word _ _ G2 K) as [L2 P2]; apply (HP t2 s1 s2 G2 (stop_list_stop _ S1) (stop_list_stop _ S2)); rewrite P2 in *; exact E
    |apply (HP _ s1 s2 G2 (stop_list_stop _ S1) (stop_list_stop _ S2)); rewrite print_fun in * by auto; exact E
    |exfalso; rewrite print_infix in E by auto; cbv zeta iota in E; pose proof K as K'; apply infixb_iff in K' as [_ K']; cbn in K'; pose proof (good_op _ _ G2) as (_ & G3 & _);
       destruct ch2 as [|a [|b ch2]]; [cbn in K'; lia|cbn in K'; lia|]; cbn [map] in E; rewrite join_cons, <- !app_assoc in E; inversion G3; subst;
       apply (HP a) in E as [_ E]; auto using stop_list_stop; [subst s1; cbn in S1; intuition discriminate|cbn; tauto]].
  pose proof (good_op _ _ G1) as (N1 & Gc & W1 & K1).
  assert (IHP : Forall (reads false stop) ch /\ Forall (reads true stop_list) ch).
  { rewrite !Forall_forall in *. split; intros t Ht; apply (IH t Ht); auto. }
  destruct IHP as [IHP IHQ]. destruct (infixb (List.length ch, o)) eqn:Ei.
  - (* infix *)
    assert (Hl : 2 <= List.length ch) by (apply infixb_iff in Ei as [_ Ei]; cbn in Ei; lia). split.
    + intros t2 s1 s2 G2 S1 S2 E. rewrite print_infix in E by auto. cbv zeta iota in E. rewrite <- !app_assoc in E. destruct (kinds t2) as [x2 K|o2 ch2 -> K|o2 ch2 -> K].
      * exfalso. destruct (leaf_word _ _ G2 K) as [L2 P2]. rewrite (P2 false) in E. symmetry in E. eapply head_plain; [exact L2|exact E].
      * exfalso. rewrite print_fun in E by auto. apply good_op in G2 as (_ & _ & W2 & _). rewrite <- app_assoc in E. symmetry in E. eapply head_plain; [exact W2|exact E].
      * rewrite print_infix in E by auto. cbv zeta iota in E. rewrite <- !app_assoc in E. apply app_inv_head in E. pose proof (good_op _ _ G2) as (N2 & Gc2 & W2 & _).
        apply read_infix in E as (E1 & E2 & E3); auto; try (cbn; tauto). apply app_inv_head in E2. split; auto. apply op_inj; auto. congruence.
    + intros t2 s1 s2 G2 S1 S2 E. rewrite print_infix in E by auto. cbv zeta iota in E. destruct (kinds t2) as [x2 K|o2 ch2 -> K|o2 ch2 -> K].
      * exfalso. destruct (leaf_word _ _ G2 K) as [L2 P2]. rewrite (P2 true), <- (P2 false) in E. destruct ch as [|a [|b ch]]; [cbn in Hl; lia|cbn in Hl; lia|]. cbn [map] in E. rewrite join_cons, <- !app_assoc in E.
        inversion IHP; subst. apply H1 in E as [_ E]; auto using stop_list_stop; [|cbn; tauto]. subst s2. cbn in S2. intuition discriminate.
      * exfalso. rewrite (print_fun o2 ch2 true), <- (print_fun o2 ch2 false) in E by auto. destruct ch as [|a [|b ch]]; [cbn in Hl; lia|cbn in Hl; lia|]. cbn [map] in E. rewrite join_cons, <- !app_assoc in E.
        inversion IHP; subst. apply H1 in E as [_ E]; auto using stop_list_stop; [|cbn; tauto]. subst s2. cbn in S2. intuition discriminate.
      * rewrite print_infix in E by auto. cbv zeta iota in E. pose proof (good_op _ _ G2) as (N2 & Gc2 & W2 & _).
        apply read_infix in E as (E1 & E2 & E3); auto. split; auto. apply op_inj; auto. congruence.
  - (* function *)
    assert (HP : reads false stop (TOp o ch)).
    { intros t2 s1 s2 G2 S1 S2 E. rewrite print_fun in E by auto. rewrite <- !app_assoc in E. destruct (kinds t2) as [x2 K|o2 ch2 -> K|o2 ch2 -> K].
      - exfalso. destruct (leaf_word _ _ G2 K) as [[_ L2] P2]. rewrite (P2 false) in E. destruct W1 as [_ W1]. apply word_cut in E as [_ E]; auto using stop_brk; [|intros (H & _); apply H; reflexivity].
        subst s2. cbn in S2. intuition discriminate.
      - rewrite print_fun in E by auto. rewrite <- !app_assoc in E. pose proof (good_op _ _ G2) as (N2 & Gc2 & [_ W2] & _). destruct W1 as [_ W1].
        apply word_cut in E as [Es E]; auto; try (intros (H & _); apply H; reflexivity). apply app_inv_head in E. apply read_list in E as [E1 E2]; auto. split; auto. apply op_inj; auto. congruence.
      - exfalso. rewrite print_infix in E by auto. cbv zeta iota in E. rewrite <- !app_assoc in E. eapply head_plain; [exact W1|exact E]. }
    split; [exact HP|]. intros t2 s1 s2 G2 S1 S2 E. destruct (kinds t2) as [x2 K|o2 ch2 -> K|o2 ch2 -> K].
    + apply (HP t2 s1 s2 G2 (stop_list_stop _ S1) (stop_list_stop _ S2)). destruct (leaf_word _ _ G2 K) as [L2 P2]. rewrite P2 in *. rewrite print_fun in * by auto. exact E.
    + apply (HP _ s1 s2 G2 (stop_list_stop _ S1) (stop_list_stop _ S2)). rewrite !print_fun in * by auto. exact E.
    + exfalso. rewrite (print_fun o ch true), <- (print_fun o ch false) in E by auto. rewrite (print_infix o2 ch2 true) in E by auto. cbv zeta iota in E. pose proof K as K'. apply infixb_iff in K' as [_ K']. cbn in K'.
      pose proof (good_op _ _ G2) as (_ & G3 & _). destruct ch2 as [|a [|b ch2]]; [cbn in K'; lia|cbn in K'; lia|]. cbn [map] in E. rewrite join_cons, <- !app_assoc in E. inversion G3; subst.
      apply HP in E as [_ E]; auto using stop_list_stop; [|cbn; tauto]. subst s1. cbn in S1. intuition discriminate.
Qed.
End Print.

(** ** Expressions with different constant tables: put the second table after the first. *)
Fixpoint shift (k : nat) (t : tree) : tree :=
  match t with TVar f => TVar f | TConst i => TConst (k + i) | TOp o ch => TOp o (map (shift k) ch) end.
Lemma print_shift {T} tb (show : T -> text) names pretty c1 c2 t : forall w,
  print tb show names pretty (c1 ++ c2) w (shift (List.length c1) t) = print tb show names pretty c2 w t.
Proof.
  induction t as [f|i|o ch IH] using tree_ind'; intros w; cbn [shift print]; auto.
  - rewrite nth_error_app2 by lia. replace (List.length c1 + i - List.length c1) with i by lia. reflexivity.
  - assert (Hm : forall w, map (print tb show names pretty (c1 ++ c2) w) (map (shift (List.length c1)) ch) = map (print tb show names pretty c2 w) ch).
    { intros w'. rewrite map_map. apply map_ext_in. intros t Ht. rewrite Forall_forall in IH. apply IH. auto. }
    rewrite map_length, !Hm. reflexivity.
Qed.
Lemma printed_shift {T} (show : T -> text) c1 c2 t : printed_tree show (c1 ++ c2) (shift (List.length c1) t) = printed_tree show c2 t.
Proof.
  induction t as [f|i|o ch IH] using tree_ind'; cbn [shift printed_tree]; auto.
  - rewrite nth_error_app2 by lia. replace (List.length c1 + i - List.length c1) with i by lia. reflexivity.
  - f_equal. rewrite map_map. apply map_ext_in. intros t Ht. rewrite Forall_forall in IH. apply IH. auto.
Qed.
Lemma good_shift D nf n1 n2 known t : tree_ok D nf n2 known t -> tree_ok D nf (n1 + n2) known (shift n1 t).
Proof.
  induction t as [f|i|o ch IH] using tree_ind'; cbn [shift tree_ok]; auto; [lia|]. rewrite map_length. intros (H1 & H2 & H3). split; auto. split; auto.
  apply fold_and_map in H3. rewrite map_map. apply fold_and_map. rewrite Forall_forall in *. auto.
Qed.
Lemma print_app {T} tb (show : T -> text) names pretty D nf known c1 c2 t : tree_ok D nf (List.length c1) known t -> forall w,
  print tb show names pretty (c1 ++ c2) w t = print tb show names pretty c1 w t.
Proof.
  induction t as [f|i|o ch IH] using tree_ind'; intros H w; cbn [tree_ok print] in *; auto.
  - rewrite nth_error_app1 by lia. reflexivity.
  - destruct H as (_ & _ & H). apply fold_and_map in H.
    assert (Hm : forall w, map (print tb show names pretty (c1 ++ c2) w) ch = map (print tb show names pretty c1 w) ch).
    { intros w'. apply map_ext_in. intros t Ht. rewrite Forall_forall in IH, H. apply IH; auto. }
    rewrite !Hm. reflexivity.
Qed.
Lemma printed_app {T} (show : T -> text) D nf known c1 c2 t : tree_ok D nf (List.length c1) known t -> printed_tree show (c1 ++ c2) t = printed_tree show c1 t.
Proof.
  induction t as [f|i|o ch IH] using tree_ind'; intros H; cbn [tree_ok printed_tree] in *; auto.
  - rewrite nth_error_app1 by lia. reflexivity.
  - destruct H as (_ & _ & H). apply fold_and_map in H. f_equal. apply map_ext_in. intros t Ht. rewrite Forall_forall in IH, H. apply IH; auto.
Qed.
Lemma good_app D nf n1 n2 known t : tree_ok D nf n1 known t -> tree_ok D nf (n1 + n2) known t.
Proof.
  induction t as [f|i|o ch IH] using tree_ind'; cbn [tree_ok]; auto; [lia|]. intros (H1 & H2 & H3). split; auto. split; auto.
  apply fold_and_map in H3. apply fold_and_map. rewrite Forall_forall in *. auto.
Qed.

(** ** C40 *)

(** The printed text follows the grammar of [print]. *)
Theorem C40_grammar : forall (T : Type) tb (show : T -> text) names pretty D nf known e t,
  lexicon tb show names pretty nf known -> nodes e = flatten t -> tree_ok D nf (List.length (consts e)) known t ->
  string_tree tb show names pretty e = Ok (print tb show names pretty (consts e) true t).
Proof. intros T tb show names pretty D nf known e t Hl Hn Hg. eapply string_tree_print; eauto. Qed.

(** It is balanced. *)
Theorem C40_balanced : forall (T : Type) tb (show : T -> text) names pretty D nf known e t,
  lexicon tb show names pretty nf known -> nodes e = flatten t -> tree_ok D nf (List.length (consts e)) known t ->
  exists s, string_tree tb show names pretty e = Ok s /\ balanced s /\ s <> [] /\ forall m, ~ enclosed s m.
Proof.
  intros T tb show names pretty D nf known e t Hl Hn Hg. rewrite (C40_grammar _ tb show names pretty D nf known e t Hl Hn Hg).
  eexists. split; [reflexivity|]. split; [eapply print_balanced; eauto|]. split; [eapply print_nonempty; eauto|eapply whole_not_enclosed; eauto].
Qed.

(** Two expressions that print alike are the same tree, up to constants that print alike. *)
Theorem C40_injective : forall (T : Type) tb (show : T -> text) names pretty D nf known e1 t1 e2 t2,
  lexicon tb show names pretty nf known ->
  nodes e1 = flatten t1 -> tree_ok D nf (List.length (consts e1)) known t1 ->
  nodes e2 = flatten t2 -> tree_ok D nf (List.length (consts e2)) known t2 ->
  string_tree tb show names pretty e1 = string_tree tb show names pretty e2 ->
  printed_tree show (consts e1) t1 = printed_tree show (consts e2) t2.
Proof.
  intros T tb show names pretty D nf known e1 t1 e2 t2 Hl N1 G1 N2 G2 E.
  rewrite (C40_grammar _ tb show names pretty D nf known e1 t1 Hl N1 G1), (C40_grammar _ tb show names pretty D nf known e2 t2 Hl N2 G2) in E. injection E as E.
  rewrite <- (printed_app show D nf known (consts e1) (consts e2) t1 G1), <- (printed_shift show (consts e1) (consts e2) t2).
  rewrite <- (print_app tb show names pretty D nf known (consts e1) (consts e2) t1 G1), <- (print_shift tb show names pretty (consts e1) (consts e2) t2) in E.
  assert (A1 : good (consts e1 ++ consts e2) nf D known t1) by (unfold good; rewrite app_length; apply good_app; auto).
  assert (A2 : good (consts e1 ++ consts e2) nf D known (shift (List.length (consts e1)) t2)) by (unfold good; rewrite app_length; apply good_shift; auto).
  destruct (read_back tb show names pretty (consts e1 ++ consts e2) nf D known Hl t1 A1) as [_ Q].
  destruct (Q (shift (List.length (consts e1)) t2) [] [] A2 I I) as [H _]; auto. rewrite !app_nil_r. exact E.
Qed.

(** If different constants print differently (true of shortest round-trip printing, except of NaNs), expressions that print alike compute the same function. *)
Theorem C40_same_function : forall (T : Type) tb (show : T -> text) names pretty D nf known e1 t1 e2 t2,
  lexicon tb show names pretty nf known -> (forall a b, show a = show b -> a = b) ->
  nodes e1 = flatten t1 -> tree_ok D nf (List.length (consts e1)) known t1 ->
  nodes e2 = flatten t2 -> tree_ok D nf (List.length (consts e2)) known t2 ->
  string_tree tb show names pretty e1 = string_tree tb show names pretty e2 ->
  forall (O : OpSet T) var d, teval O var (fun i => nth i (consts e1) d) t1 = teval O var (fun i => nth i (consts e2) d) t2.
Proof.
  intros T tb show names pretty D nf known e1 t1 e2 t2 Hl Hi N1 G1 N2 G2 E O var d.
  pose proof (C40_injective T tb show names pretty D nf known e1 t1 e2 t2 Hl N1 G1 N2 G2 E) as H. clear - Hi G1 G2 H.
  revert t2 G1 G2 H. induction t1 as [f|i|o ch IH] using tree_ind'; intros [g|j|o2 ch2] G1 G2 H; cbn [printed_tree teval tree_ok] in *; try discriminate.
  - congruence.
  - injection H as H. destruct (nth_error (consts e1) i) as [a|] eqn:Ea; [|apply nth_error_None in Ea; lia]. destruct (nth_error (consts e2) j) as [b|] eqn:Eb; [|apply nth_error_None in Eb; lia].
    apply Hi in H. subst. rewrite (nth_error_nth _ _ d Ea), (nth_error_nth _ _ d Eb). reflexivity.
  - injection H as -> Hm. destruct G1 as (_ & _ & G1). destruct G2 as (_ & _ & G2). apply fold_and_map in G1, G2.
    assert (Hc : map (teval O var (fun i => nth i (consts e1) d)) ch = map (teval O var (fun i => nth i (consts e2) d)) ch2).
    { revert ch2 G2 Hm. induction ch as [|c ch IH2]; intros [|c2 ch2] G2 Hm; try discriminate; auto. cbn in *. injection Hm as H1 H2. inversion IH; subst. inversion G1; subst. inversion G2; subst.
      f_equal; auto. }
    rewrite Hc. f_equal. rewrite <- (map_length (printed_tree show (consts e1)) ch), Hm. apply map_length.
Qed.

(** ** The lexicon of the built-in operators and the default variable names *)
Definition builtin_known (a o : nat) : bool := o <? List.length (builtin_names a).
Definition plainb (c : ascii) : bool := negb (Ascii.eqb c "(") && negb (Ascii.eqb c ")") && negb (Ascii.eqb c ",") && negb (Ascii.eqb c " ").
Lemma plainb_plain c : plainb c = true -> plain c.
Proof.
  unfold plainb, plain. rewrite !andb_true_iff, !negb_true_iff. intros (((H1 & H2) & H3) & H4). repeat split; apply Ascii.eqb_neq; auto.
Qed.
Lemma digits_plain d : forall c, In c (text_of (DecimalString.NilEmpty.string_of_uint d)) -> plain c.
Proof.
  unfold text_of. induction d; cbn; intros c H; [contradiction| | | | | | | | | | ]; (destruct H as [<-|H]; [apply plainb_plain; reflexivity|auto]).
Qed.
Lemma to_uint_not_nil n : Nat.to_uint n <> Decimal.Nil.
Proof. intros H. assert (n = 0) by (rewrite <- (DecimalNat.Unsigned.of_to n), H; reflexivity). subst. discriminate. Qed.
Lemma decimal_plain n : Forall plain (decimal n).
Proof.
  apply Forall_forall. intros c. unfold decimal, DecimalString.NilZero.string_of_uint. pose proof (to_uint_not_nil n). destruct (Nat.to_uint n) eqn:E; [congruence| | | | | | | | | | ]; apply digits_plain.
Qed.
Lemma decimal_inj a b : decimal a = decimal b -> a = b.
Proof.
  unfold decimal, text_of. intros H. apply (f_equal string_of_list_ascii) in H. rewrite !string_of_list_ascii_of_string in H.
  apply (f_equal DecimalString.NilZero.uint_of_string) in H. rewrite !DecimalString.NilZero.usu in H by apply to_uint_not_nil. injection H as H.
  apply DecimalNat.Unsigned.to_uint_inj. auto.
Qed.
Definition text_eqb (a b : text) : bool := if list_eq_dec Ascii.ascii_dec a b then true else false.
Fixpoint all_different (l : list text) : bool := match l with [] => true | x :: l' => negb (existsb (text_eqb x) l') && all_different l' end.
Lemma all_different_nth l : all_different l = true -> forall i j x, nth_error l i = Some x -> nth_error l j = Some x -> i = j.
Proof.
  intros H. assert (Hn : NoDup l).
  { induction l as [|x l IH]; [constructor|]. cbn in H. apply andb_true_iff in H as [H1 H2]. apply negb_true_iff in H1. constructor; auto. intros Hin.
    enough (existsb (text_eqb x) l = true) by congruence. apply existsb_exists. exists x. split; auto. unfold text_eqb. destruct (list_eq_dec Ascii.ascii_dec x x); congruence. }
  intros i j x Hi Hj. apply (proj1 (NoDup_nth_error l) Hn); [apply nth_error_Some; congruence|congruence].
Qed.
Definition builtin_symbols (pretty : bool) (a : nat) : list text := map (fun o => symbol builtin_table pretty (a, o)) (seq 0 (List.length (builtin_names a))).
Lemma builtin_symbol_nth pretty a o : builtin_known a o = true -> nth_error (builtin_symbols pretty a) o = Some (symbol builtin_table pretty (a, o)).
Proof.
  unfold builtin_known, builtin_symbols. intros H. apply Nat.ltb_lt in H. rewrite nth_error_map.
  rewrite (nth_error_nth' (seq 0 (List.length (builtin_names a))) 0) by (rewrite seq_length; auto). rewrite seq_nth by auto. reflexivity.
Qed.
Lemma builtin_arities a : a = 1 \/ a = 2 \/ a = 3 \/ builtin_names a = [].
Proof. destruct a as [|[|[|[|a]]]]; auto. Qed.

(** Constants that print as words not starting with an x (digits, sign, point, "inf", "NaN"). *)
Theorem C40_builtin_lexicon : forall (T : Type) (show : T -> text) pretty nf,
  (forall c, word (show c) /\ hd " "%char (show c) <> "x"%char) ->
  lexicon builtin_table show None pretty nf builtin_known.
Proof.
  intros T show pretty nf Hs. constructor.
  - intros f _. cbn. split; [discriminate|]. constructor; [apply plainb_plain; reflexivity|apply decimal_plain].
  - intros c. apply Hs.
  - intros a o Hk. pose proof (builtin_symbol_nth pretty a o Hk) as Hn. apply nth_error_In in Hn.
    assert (Hall : forallb (fun s => negb (List.length s =? 0) && forallb plainb s) (builtin_symbols pretty a) = true).
    { destruct (builtin_arities a) as [->|[->|[->|E]]]; [destruct pretty; vm_compute; reflexivity|destruct pretty; vm_compute; reflexivity|destruct pretty; vm_compute; reflexivity|]. unfold builtin_symbols. rewrite E. reflexivity. }
    rewrite forallb_forall in Hall. apply Hall in Hn. apply andb_true_iff in Hn as [H1 H2]. split; [intros E; rewrite E in H1; discriminate|].
    rewrite forallb_forall in H2. apply Forall_forall. intros c Hc. apply plainb_plain. auto.
  - intros f g _ _ H. cbn in H. injection H as H. apply decimal_inj. auto.
  - intros f c _ H. destruct (Hs c) as [_ Hc]. rewrite <- H in Hc. cbn in Hc. congruence.
  - intros a o o' K1 K2 _ E. apply (builtin_symbol_nth pretty) in K1, K2. rewrite E in K1.
    assert (Hd : all_different (builtin_symbols pretty a) = true).
    { destruct (builtin_arities a) as [->|[->|[->|Ea]]]; [destruct pretty; vm_compute; reflexivity|destruct pretty; vm_compute; reflexivity|destruct pretty; vm_compute; reflexivity|]. unfold builtin_symbols. rewrite Ea. reflexivity. }
    eapply all_different_nth; eauto.
Qed.

(** Non-vacuity: integers as constants; [-(x0 * (x1 + 3))] with an argument list. *)
Definition show_nat (n : nat) : text := decimal n.
Lemma show_nat_ok c : word (show_nat c) /\ hd " "%char (show_nat c) <> "x"%char.
Proof.
  split; [split; [|apply decimal_plain]|].
  - unfold show_nat, decimal, DecimalString.NilZero.string_of_uint. destruct (Nat.to_uint c); discriminate.
  - unfold show_nat, decimal, DecimalString.NilZero.string_of_uint. destruct (Nat.to_uint c); cbn; discriminate.
Qed.
Definition printed_expr : expr nat := mkExpr [Var 0; Var 1; Const 0; Op 2 0; Op 2 5; Op 1 22; Var 0; Const 0; Op 2 7; Op 2 3] [3] [].
Example C40_case : lexicon builtin_table show_nat None false 2 builtin_known
  /\ string_tree builtin_table show_nat None false printed_expr = Ok (text_of "max(-(x0 * (x1 + 3)), x0 - 3)").
Proof. split; [apply C40_builtin_lexicon, show_nat_ok|reflexivity]. Qed.

(** The names given by the user have to cover all the features: with one name for two features the default name of the second may be that of the first. *)
Theorem C40_short_name_list_refuted : string_tree builtin_table show_nat (Some [text_of "x1"]) false (mkExpr [Var 0] [] [])
  = string_tree builtin_table show_nat (Some [text_of "x1"]) false (mkExpr [Var 1] [] []).
Proof. reflexivity. Qed.
(** And names have to be words: here a variable prints like a sum. *)
Theorem C40_free_names_refuted : let names := Some [text_of "a"; text_of "b"; text_of "a + b"] in
  string_tree builtin_table show_nat names false (mkExpr [Var 0; Var 1; Op 2 0] [] []) = string_tree builtin_table show_nat names false (mkExpr [Var 2] [] []).
Proof. reflexivity. Qed.

(** ** Names and functions *)
(** What the operators mean, by name, in terms of the library functions of the number type. *)
Section Meaning.
Context {T : Type} (F : FloatOps T) (M : Builtin.MathOps T).
Local Open Scope string_scope.
Definition meaning1 : list (string * (T -> T)) :=
  [("abs", Builtin.mo_abs M); ("abs2", fun x => fmul F x x); ("acos", Builtin.mo_acos M); ("acosh", Builtin.mo_acosh M); ("asin", Builtin.mo_asin M);
   ("asinh", Builtin.mo_asinh M); ("atan", Builtin.mo_atan M); ("atanh", Builtin.mo_atanh M); ("cbrt", Builtin.mo_cbrt M); ("cos", Builtin.mo_cos M);
   ("cosh", Builtin.mo_cosh M); ("cot", fun x => fdiv F (fone F) (Builtin.mo_tan M x)); ("csc", fun x => fdiv F (fone F) (Builtin.mo_sin M x));
   ("exp", Builtin.mo_exp M); ("exp2", Builtin.mo_exp2 M); ("expm1", Builtin.mo_exp_m1 M); ("identity", fun x => x); ("inv", Builtin.mo_recip M);
   ("log", Builtin.mo_ln M); ("log1p", Builtin.mo_ln_1p M); ("log2", Builtin.mo_log2 M); ("log10", Builtin.mo_log10 M); ("neg", fneg F);
   ("sec", fun x => fdiv F (fone F) (Builtin.mo_cos M x)); ("sign", Builtin.mo_signum M); ("sin", Builtin.mo_sin M); ("sinh", Builtin.mo_sinh M);
   ("sqrt", Builtin.mo_sqrt M); ("tan", Builtin.mo_tan M); ("tanh", Builtin.mo_tanh M)].
Definition meaning2 : list (string * (T -> T -> T)) :=
  [("add", fadd F); ("sub", fsub F); ("mul", fmul F); ("div", fdiv F); ("pow", Builtin.mo_powf M); ("atan2", Builtin.mo_atan2 M);
   ("min", Builtin.mo_min M); ("max", Builtin.mo_max M)].
Definition means {A} (table : list (string * A)) (name : string) (f : A) : Prop := In (name, f) table.
End Meaning.
(** The operator an id evaluates to is the one whose name the id prints as, for every number type. *)
Theorem C51_names : forall (T : Type) (F : FloatOps T) (M : Builtin.MathOps T) a id,
  oknown (Builtin.builtin_ops F M) a id = true ->
  In id (ops_with_arity builtin_table a)
  /\ let name := op_name builtin_table (a, id) in let value := oeval (Builtin.builtin_ops F M) a id in
     (a = 1 -> exists f, means (meaning1 F M) name f /\ forall x, value [x] = f x)
     /\ (a = 2 -> exists f, means (meaning2 F M) name f /\ forall x y, value [x; y] = f x y)
     /\ (a = 3 -> (name = "fma"%string /\ forall x y z, value [x; y; z] = Builtin.mo_mul_add M x y z)
               \/ (name = "clamp"%string /\ forall x y z, fleb F y z = true -> value [x; y; z] = Builtin.mo_clamp M x y z)).
Proof.
  intros T F M a id H. assert (Ha : a = 1 \/ a = 2 \/ a = 3) by (destruct a as [|[|[|[|a]]]]; cbn in H; auto; discriminate).
  destruct Ha as [-> |[-> | ->]]; cbn [Builtin.builtin_ops oknown] in H; apply Nat.ltb_lt in H; cbn [List.length Builtin.unary_ids Builtin.binary_ids Builtin.ternary_ids] in H.
  - split; [apply in_seq; cbn; lia|]. cbv zeta. split; [|split; discriminate]. intros _.
    do 30 (destruct id as [|id]; [eexists; split; cycle 1; [intros x; reflexivity|]; cbn; repeat (first [left; reflexivity|right])|]). lia.
  - split; [apply in_seq; cbn; lia|]. cbv zeta. split; [discriminate|]. split; [|discriminate]. intros _.
    do 8 (destruct id as [|id]; [eexists; split; cycle 1; [intros x y; reflexivity|]; cbn; repeat (first [left; reflexivity|right])|]). lia.
  - split; [apply in_seq; cbn; lia|]. cbv zeta. split; [discriminate|]. split; [discriminate|]. intros _.
    destruct id as [|[|id]]; [right|left|lia]; split; auto. intros x y z Hc. cbn. rewrite Hc. reflexivity.
Qed.

Print Assumptions C51_names.
Print Assumptions C40_strip.
Print Assumptions C40_grammar.
Print Assumptions C40_balanced.
Print Assumptions C40_injective.
Print Assumptions C40_same_function.
Print Assumptions C40_builtin_lexicon.
