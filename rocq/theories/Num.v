(** Laws of the scalar type that some theorems take as premises, and instances that satisfy them: IEEE floats for
    the order laws, extended rationals for exact arithmetic. *)
From Coq Require Import QArith Lqa SpecFloat.
From Verif Require Import Base Instances.
Local Open Scope nat_scope.

(** Not NaN. *)
Definition num {T} (F : FloatOps T) (x : T) : Prop := feqb F x x = true.

(** [<] and [==] are a total order on the values that are not NaN, with infinity at the top. *)
Record OrderLaws {T} (F : FloatOps T) : Prop := {
  ol_num : forall x y, fltb F x y = true -> num F x /\ num F y;
  ol_irr : forall x, fltb F x x = false;
  ol_trans : forall x y z, fltb F x y = true -> fltb F y z = true -> fltb F x z = true;
  ol_total : forall x y, num F x -> num F y -> fltb F x y = true \/ feqb F x y = true \/ fltb F y x = true;
  ol_eq_num : forall x y, feqb F x y = true -> num F x /\ num F y;
  ol_eq_l : forall x y z, feqb F x y = true -> fltb F x z = fltb F y z;
  ol_eq_r : forall x y z, feqb F x y = true -> fltb F z x = fltb F z y;
  ol_eq_sym : forall x y, feqb F x y = feqb F y x;
  ol_eq_trans : forall x y z, feqb F x y = true -> feqb F y z = true -> feqb F x z = true;
  ol_inf_num : num F (finf F);
  ol_inf_top : forall x, fltb F (finf F) x = false }.

(** IEEE floats: compare by (class, exponent, mantissa). *)
Definition sf_key (x : spec_float) : option (Z * Z * Z) :=
  match x with
  | S754_nan => None
  | S754_infinity true => Some (-2, 0, 0)%Z
  | S754_finite true m e => Some (-1, -e, Z.neg m)%Z
  | S754_zero _ => Some (0, 0, 0)%Z
  | S754_finite false m e => Some (1, e, Z.pos m)%Z
  | S754_infinity false => Some (2, 0, 0)%Z
  end.
Definition lexlt (a b : Z * Z * Z) : Prop :=
  let '(a1, a2, a3) := a in let '(b1, b2, b3) := b in
  (a1 < b1 \/ a1 = b1 /\ (a2 < b2 \/ a2 = b2 /\ a3 < b3))%Z.

Lemma SFcompare_key x y :
  match SFcompare x y, sf_key x, sf_key y with
  | Some Lt, Some a, Some b => lexlt a b
  | Some Gt, Some a, Some b => lexlt b a
  | Some Eq, Some a, Some b => a = b
  | None, _, _ => sf_key x = None \/ sf_key y = None
  | _, _, _ => False
  end.
Proof.
  destruct x as [sx|sx| |sx mx ex], y as [sy|sy| |sy my ey]; cbn; auto;
    try (destruct sx); try (destruct sy); cbn; try (repeat split; lia); auto; try lia.
  - destruct (Z.compare_spec ex ey); cbn; subst; try (right; split; [reflexivity|]; lia).
    change (Pos.compare_cont Eq mx my) with (Pos.compare mx my). destruct (Pos.compare_spec mx my); cbn; subst; auto; right; split; auto; right; split; auto; lia.
  - destruct (Z.compare_spec ex ey); cbn; subst; try (right; split; [reflexivity|]; lia).
    change (Pos.compare_cont Eq mx my) with (Pos.compare mx my). destruct (Pos.compare_spec mx my); cbn; subst; auto; right; split; auto; right; split; auto; lia.
Qed.

Lemma lexlt_irr a : ~ lexlt a a.
Proof. destruct a as [[a1 a2] a3]; cbn; lia. Qed.
Lemma lexlt_asym a b : lexlt a b -> lexlt b a -> False.
Proof. destruct a as [[a1 a2] a3], b as [[b1 b2] b3]; cbn; lia. Qed.

Lemma SFltb_key x y : SFltb x y = true <-> exists a b, sf_key x = Some a /\ sf_key y = Some b /\ lexlt a b.
Proof.
  unfold SFltb. pose proof (SFcompare_key x y) as H. split.
  - destruct (SFcompare x y) as [[]|]; try discriminate. intros _.
    destruct (sf_key x), (sf_key y); try contradiction. eauto.
  - intros (a & b & Ha & Hb & Hl). rewrite Ha, Hb in H. destruct (SFcompare x y) as [[]|]; auto.
    + subst. exfalso. exact (lexlt_irr _ Hl).
    + exfalso. exact (lexlt_asym _ _ Hl H).
    + destruct H; discriminate.
Qed.

Lemma SFeqb_key x y : SFeqb x y = true <-> exists a, sf_key x = Some a /\ sf_key y = Some a.
Proof.
  unfold SFeqb. pose proof (SFcompare_key x y) as H. split.
  - destruct (SFcompare x y) as [[]|]; try discriminate. intros _.
    destruct (sf_key x), (sf_key y); try contradiction. subst. eauto.
  - intros (a & Ha & Hb). rewrite Ha, Hb in H. destruct (SFcompare x y) as [[]|]; auto; try (exfalso; exact (lexlt_irr _ H)).
    destruct H; discriminate.
Qed.

Lemma lexlt_trans a b c : lexlt a b -> lexlt b c -> lexlt a c.
Proof. destruct a as [[a1 a2] a3], b as [[b1 b2] b3], c as [[c1 c2] c3]; cbn; lia. Qed.
Lemma lexlt_total a b : lexlt a b \/ a = b \/ lexlt b a.
Proof.
  destruct a as [[a1 a2] a3], b as [[b1 b2] b3]; cbn.
  destruct (Z.lt_total a1 b1) as [?|[->|?]]; [lia| |lia].
  destruct (Z.lt_total a2 b2) as [?|[->|?]]; [lia| |lia].
  destruct (Z.lt_total a3 b3) as [?|[->|?]]; [lia|auto|lia].
Qed.

Lemma bool_ext (a b : bool) : (a = true <-> b = true) -> a = b.
Proof. destruct a, b; intuition congruence. Qed.

Lemma sf_order_laws prec emax : OrderLaws (sfops prec emax).
Proof.
  split; unfold num; cbn [sfops fltb feqb finf].
  - intros x y H. apply SFltb_key in H as (a & b & Ha & Hb & _). split; apply SFeqb_key; eauto.
  - intros x. apply not_true_is_false. intros H. apply SFltb_key in H as (a & b & Ha & Hb & H).
    rewrite Ha in Hb. injection Hb as <-. exact (lexlt_irr _ H).
  - intros x y z H1 H2. apply SFltb_key in H1 as (a & b & Ha & Hb & H1). apply SFltb_key in H2 as (b' & c & Hb' & Hc & H2).
    rewrite Hb in Hb'. injection Hb' as <-. apply SFltb_key. exists a, c. eauto using lexlt_trans.
  - intros x y H1 H2. apply SFeqb_key in H1 as (a & Ha & _). apply SFeqb_key in H2 as (b & Hb & _).
    destruct (lexlt_total a b) as [H|[->|H]].
    + left. apply SFltb_key; eauto.
    + right; left. apply SFeqb_key; eauto.
    + right; right. apply SFltb_key; eauto.
  - intros x y H. apply SFeqb_key in H as (a & Ha & Hb). split; apply SFeqb_key; eauto.
  - intros x y z H. apply SFeqb_key in H as (a & Ha & Hb). apply bool_ext. rewrite !SFltb_key. rewrite Ha, Hb. reflexivity.
  - intros x y z H. apply SFeqb_key in H as (a & Ha & Hb). apply bool_ext. rewrite !SFltb_key. rewrite Ha, Hb. reflexivity.
  - intros x y. apply bool_ext. rewrite !SFeqb_key. split; intros (a & H1 & H2); eauto.
  - intros x y z H1 H2. apply SFeqb_key in H1 as (a & Ha & Hb). apply SFeqb_key in H2 as (b & Hb' & Hc). apply SFeqb_key. exists a. split; congruence.
  - reflexivity.
  - intros x. apply not_true_is_false. intros H. apply SFltb_key in H as (a & b & Ha & Hb & H).
    cbn in Ha. injection Ha as <-. destruct x as [s|s| |s m e]; try destruct s; cbn in Hb; try discriminate; injection Hb as <-; cbn in H; lia.
Qed.

(** ** Exact arithmetic *)
(** [val] is the rational value of the finite numbers, and the operations are exact on them. *)
Record ExactLaws {T} (F : FloatOps T) (val : T -> Q) : Prop := {
  ex_zero : ffinite F (fzero F) = true /\ (val (fzero F) == 0)%Q;
  ex_one : ffinite F (fone F) = true /\ (val (fone F) == 1)%Q;
  ex_add : forall a b, ffinite F a = true -> ffinite F b = true ->
             ffinite F (fadd F a b) = true /\ (val (fadd F a b) == val a + val b)%Q;
  ex_sub : forall a b, ffinite F a = true -> ffinite F b = true ->
             ffinite F (fsub F a b) = true /\ (val (fsub F a b) == val a - val b)%Q;
  ex_mul : forall a b, ffinite F a = true -> ffinite F b = true ->
             ffinite F (fmul F a b) = true /\ (val (fmul F a b) == val a * val b)%Q;
  ex_div : forall a b, ffinite F a = true -> ffinite F b = true -> ~ (val b == 0)%Q ->
             ffinite F (fdiv F a b) = true /\ (val (fdiv F a b) == val a / val b)%Q;
  ex_lt : forall a b, ffinite F a = true -> ffinite F b = true -> fltb F a b = true <-> (val a < val b)%Q;
  ex_eq : forall a b, ffinite F a = true -> ffinite F b = true -> feqb F a b = true <-> (val a == val b)%Q;
  ex_inf : ffinite F (finf F) = false /\ forall a, ffinite F a = true -> fltb F a (finf F) = true /\ fltb F (finf F) a = false }.

(** Rationals extended with infinities and NaN. *)
Inductive xq : Type := XF (q : Q) | XInf (neg : bool) | XNaN.
Definition xfin (x : xq) : bool := match x with XF _ => true | _ => false end.
Definition xval (x : xq) : Q := match x with XF q => q | _ => 0%Q end.
Definition xneg (x : xq) : xq := match x with XF q => XF (- q)%Q | XInf b => XInf (negb b) | XNaN => XNaN end.
Definition xadd (x y : xq) : xq :=
  match x, y with
  | XF a, XF b => XF (a + b)%Q
  | XInf a, XInf b => if Bool.eqb a b then XInf a else XNaN
  | XInf a, XF _ | XF _, XInf a => XInf a
  | _, _ => XNaN
  end.
Definition xlt (x y : xq) : bool :=
  match x, y with
  | XF a, XF b => negb (Qle_bool b a)
  | XInf true, (XF _ | XInf false) => true
  | XF _, XInf false => true
  | _, _ => false
  end.
Definition xeq (x y : xq) : bool :=
  match x, y with XF a, XF b => Qeq_bool a b | XInf a, XInf b => Bool.eqb a b | _, _ => false end.
Definition xsign (x : xq) : bool := xlt x (XF 0).
Definition xmul (x y : xq) : xq :=
  match x, y with
  | XF a, XF b => XF (a * b)%Q
  | XNaN, _ | _, XNaN => XNaN
  | _, _ => if xeq x (XF 0) || xeq y (XF 0) then XNaN else XInf (xorb (xsign x) (xsign y))
  end.
Definition xdiv (x y : xq) : xq :=
  match x, y with
  | XF a, XF b => if Qeq_bool b 0 then (if Qeq_bool a 0 then XNaN else XInf (xsign x)) else XF (a / b)%Q
  | XF _, XInf _ => XF 0
  | XInf s, XF b => XInf (xorb s (xsign y))
  | _, _ => XNaN
  end.
Definition xqops : FloatOps xq := {|
  fzero := XF 0; fone := XF 1; fnan := XNaN; finf := XInf false;
  fadd := xadd; fsub := fun a b => xadd a (xneg b); fmul := xmul; fdiv := xdiv; fneg := xneg;
  ffinite := xfin; fis_zero := fun x => xeq x (XF 0); fltb := xlt; feqb := xeq |}.

Lemma xq_exact : ExactLaws xqops xval.
Proof.
  assert (Hlt : forall a b, negb (Qle_bool b a) = true <-> (a < b)%Q).
  { intros a b. rewrite negb_true_iff. split.
    - intros H. apply Qnot_le_lt. intros Hc. apply Qle_bool_iff in Hc. congruence.
    - intros H. apply not_true_is_false. intros Hc. apply Qle_bool_iff in Hc. apply (Qlt_not_le _ _ H Hc). }
  split; cbn [xqops fzero fone ffinite fadd fsub fmul fdiv fltb feqb finf].
  - split; reflexivity.
  - split; reflexivity.
  - intros [a| |] [b| |]; try discriminate. intros _ _. split; reflexivity.
  - intros [a| |] [b| |]; try discriminate. intros _ _. split; reflexivity.
  - intros [a| |] [b| |]; try discriminate. intros _ _. split; reflexivity.
  - intros [a| |] [b| |]; try discriminate. intros _ _ H. cbn. destruct (Qeq_bool b 0) eqn:E.
    + apply Qeq_bool_iff in E. contradiction.
    + split; reflexivity.
  - intros [a| |] [b| |]; try discriminate. intros _ _. cbn. apply Hlt.
  - intros [a| |] [b| |]; try discriminate. intros _ _. cbn. apply Qeq_bool_iff.
  - split; auto. intros [a| |]; try discriminate. auto.
Qed.

Lemma xq_order_laws : OrderLaws xqops.
Proof.
  assert (Hlt : forall a b, negb (Qle_bool b a) = true <-> (a < b)%Q).
  { intros a b. rewrite negb_true_iff. split.
    - intros H. apply Qnot_le_lt. intros Hc. apply Qle_bool_iff in Hc. congruence.
    - intros H. apply not_true_is_false. intros Hc. apply Qle_bool_iff in Hc. apply (Qlt_not_le _ _ H Hc). }
  assert (Hn : forall x, xeq x x = true <-> x <> XNaN).
  { intros [q|[]|]; cbn; split; try discriminate; auto; try congruence. intros _. apply Qeq_bool_iff. reflexivity. }
  split; unfold num; cbn [xqops fltb feqb finf].
  - intros x y H. rewrite !Hn. destruct x as [|[]|], y as [|[]|]; cbn in H; split; congruence.
  - intros [q|[]|]; cbn; auto. apply negb_false_iff. apply Qle_bool_iff. apply Qle_refl.
  - intros [a|[]|] [b|[]|] [c|[]|]; cbn; auto; try discriminate. rewrite !Hlt. intros; eapply Qlt_trans; eauto.
  - intros [a|[]|] [b|[]|]; cbn; auto; try discriminate. intros _ _. rewrite !Hlt, Qeq_bool_iff.
    destruct (Qlt_le_dec a b) as [H|H]; auto. apply Qle_lteq in H as [H|H]; auto. right; left. symmetry; auto.
  - intros x y H. rewrite !Hn. destruct x as [|[]|], y as [|[]|]; cbn in H; split; congruence.
  - intros [a|[]|] [b|[]|] [c|[]|]; cbn; auto; try discriminate. intros H. apply Qeq_bool_iff in H. apply bool_ext. rewrite !Hlt. rewrite H. reflexivity.
  - intros [a|[]|] [b|[]|] [c|[]|]; cbn; auto; try discriminate. intros H. apply Qeq_bool_iff in H. apply bool_ext. rewrite !Hlt. rewrite H. reflexivity.
  - intros [a|[]|] [b|[]|]; cbn; auto. apply bool_ext. rewrite !Qeq_bool_iff. split; intros H; symmetry; exact H.
  - intros [a|[]|] [b|[]|] [c|[]|]; cbn; auto; try discriminate. rewrite !Qeq_bool_iff. intros H1 H2. rewrite H1. exact H2.
  - reflexivity.
  - intros [a|[]|]; reflexivity.
Qed.
