(** Specification: expressions as literal trees, that is trees whose constant leaves hold the constant itself
    instead of an index into a table. Two expressions denoting the same literal tree are the same formula. *)
From Verif Require Import Base BaseLemmas Node Tree NodeProofs Utils UtilsProofs PropUtils.

Inductive xtree (T : Type) : Type :=
| XVar (feature : nat)
| XConst (v : T)
| XOp (op : nat) (children : list (xtree T)).
Arguments XVar {T}. Arguments XConst {T}. Arguments XOp {T}.

Section xtree_ind'.
  Variable T : Type.
  Variable P : xtree T -> Prop.
  Hypothesis HV : forall f, P (XVar f).
  Hypothesis HC : forall v, P (XConst v).
  Hypothesis HO : forall op cs, Forall P cs -> P (XOp op cs).
  Fixpoint xtree_ind' (t : xtree T) : P t :=
    match t with
    | XVar f => HV f
    | XConst v => HC v
    | XOp op cs =>
        HO op cs ((fix go (l : list (xtree T)) : Forall P l :=
                     match l with
                     | [] => Forall_nil _
                     | c :: l' => Forall_cons c (xtree_ind' c) (go l')
                     end) cs)
    end.
End xtree_ind'.

Fixpoint xsize {T} (x : xtree T) : nat :=
  match x with XVar _ | XConst _ => 1 | XOp _ cs => 1 + sum_list (map xsize cs) end.

(** Height, a leaf having height 1. *)
Fixpoint xdepth {T} (x : xtree T) : nat :=
  match x with XVar _ | XConst _ => 1 | XOp _ cs => 1 + fold_right Nat.max 0 (map xdepth cs) end.

(** Features below [nf]; every operator known, with between 1 and [D] arguments. *)
Fixpoint x_ok {T} (D nf : nat) (known : nat -> nat -> bool) (x : xtree T) : Prop :=
  match x with
  | XVar f => f < nf
  | XConst _ => True
  | XOp op cs => 1 <= List.length cs <= D /\ known (List.length cs) op = true
                 /\ fold_right and True (map (x_ok D nf known) cs)
  end.

(** Value. *)
Fixpoint xeval {T} (O : OpSet T) (var : nat -> T) (x : xtree T) : T :=
  match x with
  | XVar f => var f
  | XConst v => v
  | XOp op cs => oeval O (List.length cs) op (map (xeval O var) cs)
  end.

(** The literal tree of a tree of indices. *)
Fixpoint lit {T} (cst : nat -> T) (t : tree) : xtree T :=
  match t with
  | TVar f => XVar f
  | TConst i => XConst (cst i)
  | TOp op cs => XOp op (map (lit cst) cs)
  end.

(** Constant [i] of the table; the default is never used on indices in range. *)
Definition const_at {T} (F : FloatOps T) (cs : list T) (i : nat) : T := nth i cs (fzero F).

(** [e] is a valid postfix expression with all constant indices in range and it spells the literal tree [x]. *)
Definition denotes {T} (F : FloatOps T) (e : expr T) (x : xtree T) : Prop :=
  exists t, represents e t /\ (forall i, In (Const i) (nodes e) -> i < List.length (consts e))
            /\ x = lit (const_at F (consts e)) t.

(** One-hole contexts over trees of any kind, given the node constructor. *)
Inductive ctx (X : Type) : Type :=
| Hole
| CNode (op : nat) (l : list X) (c : ctx X) (r : list X).
Arguments Hole {X}. Arguments CNode {X}.

Fixpoint plug {X} (mk : nat -> list X -> X) (C : ctx X) (x : X) : X :=
  match C with
  | Hole => x
  | CNode op l c r => mk op (l ++ plug mk c x :: r)
  end.

Notation tplug := (plug TOp).
Notation xplug := (plug XOp).

Fixpoint map_ctx {X Y} (f : X -> Y) (C : ctx X) : ctx Y :=
  match C with
  | Hole => Hole
  | CNode op l c r => CNode op (map f l) (map_ctx f c) (map f r)
  end.

(** ** Basic facts *)
Lemma lit_plug {T} (cst : nat -> T) C s : lit cst (tplug C s) = xplug (map_ctx (lit cst) C) (lit cst s).
Proof. induction C as [|op l C IH r]; cbn; auto. rewrite map_app. cbn. now rewrite IH. Qed.

Lemma xsize_lit {T} (cst : nat -> T) t : xsize (lit cst t) = tsize t.
Proof.
  induction t as [f|i|op cs IH] using tree_ind'; cbn; auto. f_equal. rewrite map_map. f_equal.
  apply map_ext_in. rewrite Forall_forall in IH. auto.
Qed.

Lemma xdepth_lit {T} (cst : nat -> T) t : xdepth (lit cst t) = tdepth t.
Proof.
  induction t as [f|i|op cs IH] using tree_ind'; cbn; auto. f_equal. rewrite map_map. f_equal.
  apply map_ext_in. rewrite Forall_forall in IH. auto.
Qed.

Lemma xeval_lit {T} (O : OpSet T) var cst t : xeval O var (lit cst t) = teval O var cst t.
Proof.
  induction t as [f|i|op cs IH] using tree_ind'; cbn; auto. rewrite map_length, map_map. f_equal.
  apply map_ext_in. rewrite Forall_forall in IH. auto.
Qed.

Lemma lit_ext {T} (c c' : nat -> T) t : (forall i, In i (const_ids (flatten t)) -> c i = c' i) -> lit c t = lit c' t.
Proof.
  induction t as [f|i|op cs IH] using tree_ind'; cbn [lit flatten]; intros H; auto.
  - f_equal. apply H. left; auto.
  - f_equal. apply map_ext_in. intros s Hs. rewrite Forall_forall in IH. apply IH; auto.
    intros i Hi. apply H. rewrite const_ids_app. apply in_or_app. left. apply const_ids_in. apply const_ids_in in Hi.
    apply in_flat_map. eauto.
Qed.

Lemma lit_rename {T} (c : nat -> T) f t : lit c (rename_tree f t) = lit (fun i => c (f i)) t.
Proof.
  induction t as [v|i|op cs IH] using tree_ind'; cbn; auto. f_equal. rewrite map_map. apply map_ext_in. rewrite Forall_forall in IH. auto.
Qed.

Lemma tree_ok_split {T} D nf nc known (cst : nat -> T) t :
  tree_ok D nf nc known t <-> x_ok D nf known (lit cst t) /\ (forall i, In (Const i) (flatten t) -> i < nc).
Proof.
  induction t as [f|i|op cs IH] using tree_ind'; cbn [lit tree_ok x_ok flatten].
  - split; [intros H; split; auto; intros i [E|[]]; discriminate|tauto].
  - split; [intros H; split; auto; intros j [E|[]]; congruence|]. intros [_ H]. apply H. left; auto.
  - rewrite map_length, map_map, !fold_right_and_Forall. rewrite !Forall_forall in *. split.
    + intros (H1 & H2 & H3). split; [split; [auto|split; [auto|]]|].
      * intros s Hs. apply (IH s Hs); auto.
      * intros i Hi. apply in_app_or in Hi as [Hi|[E|[]]]; [|discriminate]. apply in_flat_map in Hi as (s & Hs & Hi).
        apply (proj1 (IH s Hs)); auto.
    + intros ((H1 & H2 & H3) & H4). split; [auto|split; [auto|]]. 
      intros s Hs. apply IH; auto. split; [now apply H3|]. intros i Hi. apply H4. apply in_or_app. left. apply in_flat_map. eauto.
Qed.

(** An expression is well formed iff it denotes a well-formed literal tree. *)
Lemma expr_ok_denotes {T} (F : FloatOps T) D nf known (e : expr T) :
  expr_ok D nf known e <-> exists x, denotes F e x /\ x_ok D nf known x.
Proof.
  split.
  - intros (t & Hr & Ht). exists (lit (const_at F (consts e)) t). rewrite (tree_ok_split D nf (List.length (consts e)) known (const_at F (consts e))) in Ht. destruct Ht as [H1 H2].
    split; [|exact H1]. exists t. unfold represents in Hr. rewrite Hr. auto.
  - intros (x & (t & Hr & Hc & ->) & Hx). exists t. split; auto. apply (tree_ok_split D nf (List.length (consts e)) known (const_at F (consts e))). split; [exact Hx|].
    unfold represents in Hr. now rewrite <- Hr.
Qed.

Lemma denotes_fun {T} (F : FloatOps T) (e : expr T) x y : denotes F e x -> denotes F e y -> x = y.
Proof.
  intros (t & H1 & _ & ->) (s & H2 & _ & ->). unfold represents in *. rewrite H1 in H2. apply flatten_inj in H2. now subst.
Qed.

Lemma denotes_size {T} (F : FloatOps T) (e : expr T) x : denotes F e x -> List.length (nodes e) = xsize x.
Proof. intros (t & H & _ & ->). rewrite xsize_lit. unfold represents in H. now rewrite H, flatten_length. Qed.

Lemma denotes_value {T} (F : FloatOps T) (O : OpSet T) (e : expr T) x t var : denotes F e x -> represents e t ->
  xeval O var x = teval O var (const_at F (consts e)) t.
Proof.
  intros (s & H & _ & ->) Hr. unfold represents in *. rewrite H in Hr. apply flatten_inj in Hr. subst. apply xeval_lit.
Qed.

Lemma x_ok_plug {T} D nf known (C : ctx (xtree T)) y : x_ok D nf known (xplug C y) ->
  x_ok D nf known y /\ forall y', x_ok D nf known y' -> x_ok D nf known (xplug C y').
Proof.
  induction C as [|op l C IH r]; cbn [plug]; auto. cbn [x_ok]. rewrite !app_length. cbn [List.length].
  rewrite fold_right_and_Forall, Forall_app. intros (H1 & H2 & H3 & H4).
  inversion H4 as [|? ? H5 H6]; subst. destruct (IH H5) as [H7 H8]. split; auto. intros y' Hy'.
  rewrite app_length. cbn [List.length]. split; auto. split; auto. rewrite fold_right_and_Forall, Forall_app. auto.
Qed.

Lemma xsize_plug {T} (C : ctx (xtree T)) y y' : xsize (xplug C y) + xsize y' = xsize (xplug C y') + xsize y.
Proof.
  induction C as [|op l C IH r]; cbn [plug]; [lia|]. cbn [xsize]. rewrite !map_app, !sum_list_app. cbn [map sum_list]. lia.
Qed.

Lemma xsize_plug_ge {T} (C : ctx (xtree T)) y : xsize y <= xsize (xplug C y).
Proof. induction C as [|op l C IH r]; cbn [plug]; auto. cbn [xsize]. rewrite map_app, sum_list_app. cbn [map sum_list]. lia. Qed.

Lemma xsize_pos {T} (x : xtree T) : 1 <= xsize x.
Proof. destruct x; cbn; lia. Qed.

(** The nodes around the hole; the arity stored in the enclosing operators does not depend on what fills it. *)
Fixpoint before (C : ctx tree) : list pnode :=
  match C with Hole => [] | CNode op l c r => flat_map flatten l ++ before c end.
Fixpoint after (C : ctx tree) : list pnode :=
  match C with
  | Hole => []
  | CNode op l c r => after c ++ flat_map flatten r ++ [Op (List.length l + 1 + List.length r) op]
  end.

Lemma flatten_tplug C s : flatten (tplug C s) = before C ++ flatten s ++ after C.
Proof.
  induction C as [|op l C IH r]; cbn [plug before after flatten]; [now rewrite app_nil_r|].
  rewrite flat_map_app'. cbn [flat_map]. rewrite IH, app_length. cbn [List.length].
  replace (List.length l + S (List.length r)) with (List.length l + 1 + List.length r) by lia.
  rewrite <- !app_assoc. reflexivity.
Qed.

Lemma subtree_at_ctx t i s : subtree_at t i s -> exists C, t = tplug C s /\ List.length (before C) + tsize s = i + 1.
Proof.
  induction 1 as [t|op l c r i s H (C & -> & IH)].
  - exists Hole. cbn. split; auto. pose proof (tsize_pos t). lia.
  - exists (CNode op l C r). cbn [plug before]. split; auto. rewrite app_length, flat_map_flatten_length. lia.
Qed.

Lemma ctx_subtree_at C s : subtree_at (tplug C s) (List.length (before C) + tsize s - 1) s.
Proof.
  induction C as [|op l C IH r]; cbn [plug before]; [constructor|].
  rewrite app_length, flat_map_flatten_length.
  replace (sum_list (map tsize l) + List.length (before C) + tsize s - 1)
    with (sum_list (map tsize l) + (List.length (before C) + tsize s - 1)) by (pose proof (tsize_pos s); lia).
  now constructor.
Qed.

Lemma subtree_at_root t i s : subtree_at t i s -> nth_error (flatten t) i = Some (root_node s).
Proof.
  intros H. apply subtree_at_spec in H as [_ (l & r & -> & Hl)]. destruct (flatten_last s) as [u Hu].
  pose proof (flatten_length s) as L. rewrite Hu in *. rewrite app_length in L. cbn in L.
  rewrite nth_error_app2 by lia. rewrite <- app_assoc. rewrite nth_error_app2 by lia.
  replace (i - List.length l - List.length u) with 0 by lia. reflexivity.
Qed.

(** The literal of a context and of what fills it, when the constant table grows. *)
Lemma const_at_app {T} (F : FloatOps T) cs ex i : i < List.length cs -> const_at F (cs ++ ex) i = const_at F cs i.
Proof. intros H. unfold const_at. now rewrite app_nth1. Qed.

Definition ids_below (n : nat) (ns : list pnode) : Prop := forall i, In (Const i) ns -> i < n.

Lemma ids_below_app n a b : ids_below n (a ++ b) <-> ids_below n a /\ ids_below n b.
Proof.
  unfold ids_below. split.
  - intros H. split; intros i Hi; apply H; apply in_or_app; auto.
  - intros [H1 H2] i Hi. apply in_app_or in Hi as [Hi|Hi]; auto.
Qed.

Lemma ids_below_le n m ns : n <= m -> ids_below n ns -> ids_below m ns.
Proof. intros H1 H2 i Hi. specialize (H2 i Hi). lia. Qed.

Lemma lit_ctx_ext {T} (c c' : nat -> T) C : (forall i, In (Const i) (before C ++ after C) -> c i = c' i) ->
  map_ctx (lit c) C = map_ctx (lit c') C.
Proof.
  induction C as [|op l C IH r]; cbn [map_ctx before after]; intros H; auto. f_equal.
  - apply map_ext_in. intros s Hs. apply lit_ext. intros i Hi. apply const_ids_in in Hi. apply H.
    apply in_or_app. left. apply in_or_app. left. apply in_flat_map. eauto.
  - apply IH. intros i Hi. apply H. rewrite !in_app_iff in *. tauto.
  - apply map_ext_in. intros s Hs. apply lit_ext. intros i Hi. apply const_ids_in in Hi. apply H.
    rewrite !in_app_iff. right. right. left. apply in_flat_map. eauto.
Qed.

(** Compressing the constants keeps the literal tree. *)
Lemma first_uses_bound ns n : ids_below n ns -> List.length (first_uses ns) <= n.
Proof.
  intros H. rewrite <- (seq_length n 0). apply NoDup_incl_length; [apply first_uses_from_nodup; constructor|].
  intros i Hi. apply first_uses_from_in in Hi as [[]|Hi]. apply const_ids_in in Hi. apply in_seq. specialize (H i Hi). lia.
Qed.

Lemma compress_denotes {T} (F : FloatOps T) (e : expr T) x : denotes F e x -> List.length (consts e) <= u16_max ->
  exists e' b, compress_constants e = Ok (e', b) /\ denotes F e' x /\ var_names e' = var_names e
    /\ List.length (consts e') <= List.length (consts e) /\ List.length (consts e') <= xsize x.
Proof.
  intros (t & Hr & Hc & ->) Hl. rewrite xsize_lit.
  assert (Hids : forall i, In i (const_ids (nodes e)) -> i < List.length (consts e)) by (intros i Hi; apply Hc; now apply const_ids_in).
  assert (Hf : List.length (first_uses (nodes e)) <= List.length (consts e)) by (now apply first_uses_bound).
  destruct (compress_spec (fzero F) e Hids) as (b & Eb & _); [lia|].
  exists (compressed (fzero F) e), b. split; [exact Eb|].
  set (u := first_uses (nodes e)) in *.
  assert (Hlen : List.length (consts (compressed (fzero F) e)) = List.length u) by (cbn; unfold gather; now rewrite map_length).
  assert (Hin : forall i, In (Const i) (flatten t) -> In i u).
  { intros i Hi. apply first_uses_from_in. right. apply const_ids_in. unfold represents in Hr. now rewrite Hr. }
  split; [|split; [reflexivity|split]].
  - exists (rename_tree (fun i => pos i u) t). split; [|split].
    + unfold represents in *. cbn [compressed nodes]. fold u. rewrite flatten_rename, Hr. apply map_ext. intros n. apply rename_node_pnode.
    + intros i Hi. rewrite Hlen. cbn [compressed nodes] in Hi. apply in_map_iff in Hi as (n & E & Hn). fold u in E.
      destruct n as [f|j|a o]; cbn in E; try discriminate. injection E as <-. apply pos_lt. apply Hin. unfold represents in Hr. now rewrite <- Hr.
    + rewrite lit_rename. apply lit_ext. intros i Hi. apply const_ids_in in Hi. specialize (Hin i Hi).
      unfold const_at. cbn [compressed consts]. fold u. unfold gather. symmetry. apply nth_error_nth.
      rewrite nth_error_map, (pos_nth i u Hin). reflexivity.
  - lia.
  - rewrite Hlen. unfold represents in Hr.
    assert (H : forall ns, List.length (first_uses ns) <= List.length ns).
    { intros ns. unfold first_uses.
      assert (G : forall l seen, List.length (first_uses_from seen l) <= List.length seen + List.length l).
      { induction l as [|i l IH]; intros seen; cbn [first_uses_from List.length]; [lia|]. etransitivity; [apply IH|].
        destruct (existsb (Nat.eqb i) seen); rewrite ?app_length; cbn; lia. }
      etransitivity; [apply G|]. cbn. induction ns as [|[f|j|a o] ns IH]; cbn; lia. }
    specialize (H (nodes e)). fold u in H. rewrite Hr, flatten_length in H. exact H.
Qed.
