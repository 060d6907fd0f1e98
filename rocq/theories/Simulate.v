(** When two runs of the same code agree: a relation on results, and its propagation through the optimisers of constants. *)
From Verif Require Import Base BaseLemmas Node Compile Eval Deriv Rng Registry Complexity Member Dataset Loss Optim ConstOpt.

(** Both runs succeed, with related results, or both panic, or both run out of fuel. *)
Definition agree {A B} (R : A -> B -> Prop) (r : res A) (r' : res B) : Prop :=
  match r, r' with
  | Ok a, Ok b => R a b
  | Panic, Panic | OutOfFuel, OutOfFuel => True
  | _, _ => False
  end.

Lemma agree_bind {A A' B B'} (R : A -> A' -> Prop) (Q : B -> B' -> Prop) r r' (k : A -> res B) (k' : A' -> res B') :
  agree R r r' -> (forall a a', r = Ok a -> r' = Ok a' -> R a a' -> agree Q (k a) (k' a')) -> agree Q (bind r k) (bind r' k').
Proof. destruct r, r'; cbn; intros H HK; try contradiction; auto. Qed.
Lemma agree_eq {A} (r : res A) : agree eq r r.
Proof. destruct r; cbn; auto. Qed.
Lemma agree_impl {A B} (R Q : A -> B -> Prop) r r' : (forall a b, r = Ok a -> r' = Ok b -> R a b -> Q a b) -> agree R r r' -> agree Q r r'.
Proof. destruct r, r'; cbn; auto. Qed.
Lemma agree_ok {A B} (R : A -> B -> Prop) r r' a : agree R r r' -> r = Ok a -> exists b, r' = Ok b /\ R a b.
Proof. intros H ->. destruct r'; cbn in H; try contradiction. eauto. Qed.

(** Both sides branch on the same value. *)
Ltac sync1 :=
  match goal with
  | |- agree _ (Ok _) (Ok _) => unfold agree
  | |- agree _ (bind ?r _) (bind ?r _) => let E := fresh "E" in destruct r eqn:E; cbn [bind]; [|exact I|exact I]
  | |- agree _ (match ?x with _ => _ end) (match ?x with _ => _ end) => destruct x
  end.
Ltac sync := cbv zeta; repeat (cbv beta; cbn [bind fst snd]; sync1).

Section Optimisers.
Context {St St' W : Type} (F : FloatOps W) (OO : OptOps W) (obj : objective St W) (obj' : objective St' W) (R : St -> St' -> Prop).
Hypothesis Hf : forall s s' x, R s s' -> agree (fun a b => R (fst a) (fst b) /\ snd a = snd b) (ob_f obj s x) (ob_f obj' s' x).
Hypothesis Hg : forall s s' x, R s s' -> agree (fun a b => R (fst a) (fst b) /\ snd a = snd b) (ob_fg obj s x) (ob_fg obj' s' x).

(** The state of an objective with its count of calls. *)
Definition RC (a : St * nat) (b : St' * nat) : Prop := R (fst a) (fst b) /\ snd a = snd b.

Lemma budgeted_sim limit s s' x : RC s s' ->
  agree (fun a b => RC (fst a) (fst b) /\ snd a = snd b) (budgeted F obj limit s x) (budgeted F obj' limit s' x).
Proof.
  destruct s as [s c], s' as [s' c']. intros [H1 H2]. cbn [fst snd] in *. subst c'. unfold budgeted. destruct (_ && _); [cbn; unfold RC; auto|].
  eapply agree_bind; [apply Hf; exact H1|]. intros [a v] [a' v'] _ _ [Ha Hv]. cbn in *. subst v'. unfold RC. auto.
Qed.
Lemma halve_sim limit x sv : forall k s s' a last x0, RC s s' ->
  agree (fun p q => RC (fst (fst (fst p))) (fst (fst (fst q))) /\ snd (fst (fst p)) = snd (fst (fst q)) /\ snd (fst p) = snd (fst q) /\ snd p = snd q)
    (halve F OO (budgeted F obj limit) x sv k s a last x0) (halve F OO (budgeted F obj' limit) x sv k s' a last x0).
Proof.
  induction k as [|k IH]; intros s s' a last x0 H; cbn [halve]; [cbn; auto|].
  destruct (axpy F x a sv) as [x1| |]; cbn [bind]; try exact I.
  eapply agree_bind; [apply budgeted_sim; exact H|]. intros [b v] [b' v'] _ _ [Hb Hv]. cbn [fst snd] in *. subst v'. cbv zeta.
  destruct (match v with Some v => ffinite F v | None => false end); [cbn; auto|]. destruct (fleb F _ _); [cbn; auto|]. apply IH. exact Hb.
Qed.
Lemma armijo_sim limit ls x sv phi0 dphi0 : forall k first s s' alpha phi ap pp xn, RC s s' ->
  agree (fun p q => RC (fst p) (fst q) /\ snd p = snd q)
    (armijo_loop F OO (budgeted F obj limit) ls x sv phi0 dphi0 k first s alpha phi ap pp xn) (armijo_loop F OO (budgeted F obj' limit) ls x sv phi0 dphi0 k first s' alpha phi ap pp xn).
Proof.
  induction k as [|k IH]; intros first s s' alpha phi ap pp xn H; cbn [armijo_loop]; [cbn; auto|].
  destruct (fleb F phi _); [cbn; auto|]. cbv zeta. match goal with |- agree _ (if ?c then _ else _) _ => destruct c end; [cbn; auto|].
  match goal with |- agree _ (bind ?r _) _ => destruct r as [x1| |]; cbn [bind]; try exact I end.
  eapply agree_bind; [apply budgeted_sim; exact H|]. intros [b v] [b' v'] _ _ [Hb Hv]. cbn [fst snd] in *. subst v'. cbv zeta.
  destruct v as [w|]; [|cbn; auto]. destruct (ffinite F w); cbn [negb]; [|cbn; auto]. apply IH. exact Hb.
Qed.
Lemma linesearch_sim limit ls x sv a0 phi0 dphi0 s s' : RC s s' ->
  agree (fun p q => RC (fst p) (fst q) /\ snd p = snd q)
    (linesearch F OO (budgeted F obj limit) ls x sv a0 phi0 dphi0 s) (linesearch F OO (budgeted F obj' limit) ls x sv a0 phi0 dphi0 s').
Proof.
  intros H. unfold linesearch. destruct (_ || _); [cbn; auto|]. cbv zeta. eapply agree_bind; [apply halve_sim; exact H|].
  intros [[[b a] v] xn] [[[b' a'] v'] xn'] _ _ (Hb & Ha & Hv & Hx). cbn [fst snd] in *. subst a' v' xn'.
  destruct v as [p|]; [|cbn; auto]. destruct (ffinite F p); cbn [negb]; [|cbn; auto]. apply armijo_sim. exact Hb.
Qed.
Lemma bfgs_loop_sim opts ls n : forall k s s' x g h fx, RC s s' ->
  agree (fun p q => RC (fst p) (fst q) /\ snd p = snd q) (bfgs_loop F OO obj opts ls n k s x g h fx) (bfgs_loop F OO obj' opts ls n k s' x g h fx).
Proof.
  induction k as [|k IH]; intros s s' x g h fx H; cbn [bfgs_loop]; cbv zeta; pose proof H as [H1 H2]; rewrite <- H2; [cbn; auto|].
  destruct (_ && _); [cbn; auto|]. destruct (_ || _); [cbn; auto|].
  destruct (matvec F h g) as [hg| |]; cbn [bind]; try exact I. destruct (dot F g (map (fneg F) hg)) as [d| |]; cbn [bind]; try exact I.
  match goal with |- agree _ (bind ?r _) _ => destruct r as [[[h1 s1] d1]| |]; cbn [bind]; try exact I end.
  destruct (_ || _); [cbn; auto|]. eapply agree_bind; [apply linesearch_sim; exact H|]. intros [b r] [b' r'] _ _ [Hb Hr]. cbn [fst snd] in *. subst r'.
  destruct r as [[[al ph] xn]|]; [|cbn; auto]. eapply agree_bind; [apply Hg; apply Hb|]. intros [c v] [c' v'] _ _ [Hc Hv]. cbn [fst snd] in *. subst v'.
  destruct Hb as [Hb1 Hb2]. rewrite <- Hb2. assert (HR : RC (c, S (snd b)) (c', S (snd b))) by (split; cbn; auto).
  destruct v as [[fn gn]|]; [|cbn; auto]. destruct (ffinite F fn); cbn [negb]; [|cbn; auto].
  destruct (sub_vec F xn x) as [dx| |]; cbn [bind]; try exact I. destruct (sub_vec F gn g) as [dg| |]; cbn [bind]; try exact I.
  destruct (dot F dx dg) as [dd| |]; cbn [bind]; try exact I. destruct (negb _); [apply IH; exact HR|]. destruct (fgtb F dd (fzero F)); [|apply IH; exact HR].
  destruct (matvec F h1 dg) as [u| |]; cbn [bind]; try exact I. destruct (dot F dg u) as [du| |]; cbn [bind]; try exact I.
  destruct (ffinite F du); [|apply IH; exact HR]. match goal with |- agree _ (bind ?r _) _ => destruct r as [h2| |]; cbn [bind]; try exact I end. apply IH. exact HR.
Qed.
Lemma bfgs_sim opts ls s s' x : R s s' -> agree (fun p q => RC (fst p) (fst q) /\ snd p = snd q) (bfgs_minimize F OO obj opts ls s x) (bfgs_minimize F OO obj' opts ls s' x).
Proof.
  intros H. unfold bfgs_minimize. cbv zeta. eapply agree_bind; [apply Hg; exact H|]. intros [c v] [c' v'] _ _ [Hc Hv]. cbn [fst snd] in *. subst v'.
  destruct v as [[fx g]|]; [|cbn; unfold RC; auto]. destruct (ffinite F fx); cbn [negb]; [|cbn; unfold RC; auto]. apply bfgs_loop_sim. split; auto.
Qed.
Lemma newton_loop_sim opts ls : forall k s s' x bx bf, RC s s' ->
  agree (fun p q => RC (fst p) (fst q) /\ snd p = snd q) (newton_loop F OO obj opts ls k s x bx bf) (newton_loop F OO obj' opts ls k s' x bx bf).
Proof.
  induction k as [|k IH]; intros s s' x bx bf H; cbn [newton_loop]; pose proof H as [H1 H2]; rewrite <- H2; [cbn; auto|].
  destruct (_ && _); [cbn; auto|]. eapply agree_bind; [apply Hg; exact H1|]. intros [c v] [c' v'] _ _ [Hc Hv]. cbn [fst snd] in *. subst v'. cbv zeta.
  destruct v as [[f gv]|]; [|cbn; unfold RC; auto]. destruct (index gv 0) as [g| |]; cbn [bind]; try exact I.
  destruct (_ || _); [cbn; unfold RC; auto|]. destruct (fleb F (oo_abs OO g) _); [cbn; unfold RC; auto|].
  eapply agree_bind; [apply Hg; exact Hc|]. intros [c2 v2] [c2' v2'] _ _ [Hc2 Hv2]. cbn [fst snd] in *. subst v2'.
  destruct v2 as [[fp gp]|]; [|cbn; unfold RC; auto]. destruct (index gp 0) as [gplus| |]; cbn [bind]; try exact I.
  eapply agree_bind; [apply Hg; exact Hc2|]. intros [c3 v3] [c3' v3'] _ _ [Hc3 Hv3]. cbn [fst snd] in *. subst v3'.
  destruct v3 as [[fm gm]|]; [|cbn; unfold RC; auto]. destruct (index gm 0) as [gminus| |]; cbn [bind]; try exact I.
  match goal with |- agree _ (let '(_, _) := ?y in _) _ => destruct y as [sv dphi0] end.
  destruct (_ || _); [cbn; unfold RC; auto|]. eapply agree_bind; [apply linesearch_sim; split; auto|]. intros [b r] [b' r'] _ _ [Hb Hr]. cbn [fst snd] in *. subst r'.
  destruct r as [[[al ph] xn]|]; [|cbn; auto]. apply IH. exact Hb.
Qed.
Lemma newton_sim opts ls s s' x : R s s' -> agree (fun p q => RC (fst p) (fst q) /\ snd p = snd q) (newton_1d_minimize F OO obj opts ls s x) (newton_1d_minimize F OO obj' opts ls s' x).
Proof. intros H. apply newton_loop_sim. split; auto. Qed.
End Optimisers.
