(** Properties C16 and C17: operator lookup and the operator registry. *)
From Coq Require Import String Ascii Permutation.
From Verif Require Import Base BaseLemmas Rng Registry.
From Coq Require Import List.
Import ListNotations.

(** ** Specification *)

(** A text made of whitespace only. *)
Fixpoint all_ws (s : string) : Prop :=
  match s with EmptyString => True | String c s' => is_ws c = true /\ all_ws s' end.
Fixpoint last_char (s : string) : option ascii :=
  match s with
  | EmptyString => None
  | String c s' => match s' with EmptyString => Some c | _ => last_char s' end
  end.
Definition first_char (s : string) : option ascii := match s with EmptyString => None | String c _ => Some c end.

(** [t] is [tok] without the whitespace around it. *)
Definition stripped (tok t : string) : Prop :=
  (exists p q, all_ws p /\ all_ws q /\ tok = (p ++ t ++ q)%string)
  /\ (forall c, first_char t = Some c -> is_ws c = false) /\ (forall c, last_char t = Some c -> is_ws c = false).

Fixpoint lower_string (s : string) : string :=
  match s with EmptyString => EmptyString | String c s' => String (lower c) (lower_string s') end.

(** The token names the operator. *)
Definition names_op (tb : optable) (tok : string) (op : opid) : Prop :=
  exists t, stripped tok t
    /\ (lower_string t = lower_string (op_name tb op) \/ t = op_display tb op \/ op_infix tb op = Some t).

(** The operators of the set. *)
Definition op_of (tb : optable) (op : opid) : Prop :=
  1 <= fst op <= max_ar tb /\ In (snd op) (ops_with_arity tb (fst op)).

(** No operator is listed twice. *)
Definition no_dup_ops (tb : optable) : Prop := forall a, NoDup (ops_with_arity tb a).

(** ** Trimming *)
Lemma append_assoc (a b c : string) : ((a ++ b) ++ c = a ++ (b ++ c))%string.
Proof. induction a; cbn; congruence. Qed.
Lemma append_nil_r (a : string) : (a ++ "")%string = a.
Proof. induction a; cbn; congruence. Qed.

Lemma rev_string_app a : forall b acc, rev_string (a ++ b) acc = rev_string b (rev_string a acc).
Proof. induction a; intros; cbn; auto. Qed.
Lemma rev_string_acc a : forall acc, rev_string a acc = (rev_string a "" ++ acc)%string.
Proof.
  induction a as [|c a IH]; intros acc; cbn; auto. rewrite IH. rewrite (IH (String c "")). now rewrite append_assoc.
Qed.
Lemma rev_app (a b : string) : rev_string (a ++ b) "" = (rev_string b "" ++ rev_string a "")%string.
Proof. now rewrite rev_string_app, rev_string_acc. Qed.
Lemma rev_invol a : rev_string (rev_string a "") "" = a.
Proof.
  induction a as [|c a IH]; auto. cbn [rev_string]. rewrite (rev_string_acc a (String c "")).
  pose proof (rev_app (rev_string a "") (String c "")) as H. rewrite H, IH. reflexivity.
Qed.
Lemma all_ws_app a b : all_ws (a ++ b) <-> all_ws a /\ all_ws b.
Proof. induction a; cbn; tauto. Qed.
Lemma all_ws_rev a : all_ws a -> all_ws (rev_string a "").
Proof.
  induction a as [|c a IH]; cbn [all_ws rev_string]; auto. intros [H1 H2]. rewrite rev_string_acc. apply all_ws_app. cbn. auto.
Qed.
Lemma last_first_rev a : last_char a = first_char (rev_string a "").
Proof.
  induction a as [|c a IH]; auto. destruct a as [|c' a]; auto.
  change (last_char (String c (String c' a))) with (last_char (String c' a)). rewrite IH.
  cbn [rev_string]. rewrite (rev_string_acc a), (rev_string_acc a (String c' (String c ""))).
  destruct (rev_string a ""); reflexivity.
Qed.

Lemma trim_start_spec s : exists p, all_ws p /\ s = (p ++ trim_start s)%string /\ (forall c, first_char (trim_start s) = Some c -> is_ws c = false).
Proof.
  induction s as [|c s IH]; cbn [trim_start].
  - exists ""%string. cbn. repeat split; auto. discriminate.
  - destruct (is_ws c) eqn:E.
    + destruct IH as (p & H1 & H2 & H3). exists (String c p). cbn. repeat split; auto. now f_equal.
    + exists ""%string. cbn. repeat split; auto. intros c' Hc. congruence.
Qed.
Lemma trim_start_uniq p s : all_ws p -> (forall c, first_char s = Some c -> is_ws c = false) -> trim_start (p ++ s) = s.
Proof.
  induction p as [|c p IH]; cbn [all_ws append trim_start].
  - intros _ H. destruct s as [|c s]; auto. cbn [trim_start]. now rewrite (H c eq_refl).
  - intros [H1 H2] H. rewrite H1. auto.
Qed.

Lemma trim_stripped tok : stripped tok (trim tok).
Proof.
  unfold trim. destruct (trim_start_spec tok) as (p & Hp & E1 & F1). set (u := trim_start tok) in *.
  destruct (trim_start_spec (rev_string u "")) as (q & Hq & E2 & F2). set (v := trim_start (rev_string u "")) in *.
  assert (Eu : u = (rev_string v "" ++ rev_string q "")%string).
  { rewrite <- (rev_invol u), E2, rev_app. reflexivity. }
  split; [|split].
  - exists p, (rev_string q ""). split; auto. split; [now apply all_ws_rev|]. now rewrite E1 at 1; rewrite Eu at 1.
  - intros c Hc. destruct (rev_string v "") as [|c' w] eqn:Ev; [discriminate|]. cbn in Hc. injection Hc as ->.
    apply F1. rewrite Eu. reflexivity.
  - intros c Hc. rewrite last_first_rev, rev_invol in Hc. auto.
Qed.

Lemma stripped_trim tok t : stripped tok t -> trim tok = t.
Proof.
  intros ((p & q & Hp & Hq & ->) & Hf & Hl). unfold trim.
  destruct t as [|c t].
  - assert (E : trim_start (p ++ "" ++ q) = EmptyString).
    { assert (W : all_ws (p ++ q)) by (apply all_ws_app; auto). cbn [append].
      revert W. generalize (p ++ q)%string. induction s as [|c s IH]; cbn; auto. intros [H1 H2]. rewrite H1. auto. }
    rewrite E. reflexivity.
  - assert (E : trim_start (p ++ String c t ++ q) = (String c t ++ q)%string) by (apply trim_start_uniq; auto).
    rewrite E, rev_app.
    assert (E2 : trim_start (rev_string q "" ++ rev_string (String c t) "") = rev_string (String c t) "").
    { apply trim_start_uniq; [now apply all_ws_rev|]. intros c' Hc. rewrite <- last_first_rev in Hc. auto. }
    rewrite E2. apply rev_invol.
Qed.

Lemma eq_ignore_case_spec a : forall b, eq_ignore_case a b = true <-> lower_string a = lower_string b.
Proof.
  induction a as [|c a IH]; intros [|d b]; cbn; split; intros H; try discriminate; auto.
  - apply andb_prop in H as [H1 H2]. apply Ascii.eqb_eq in H1. apply IH in H2. congruence.
  - injection H as H1 H2. rewrite H1, Ascii.eqb_refl. now apply IH.
Qed.

Lemma matches_token_spec tb op tok : matches_token tb op tok = true <-> names_op tb tok op.
Proof.
  unfold matches_token, names_op. rewrite !orb_true_iff, eq_ignore_case_spec, String.eqb_eq. split.
  - intros H. exists (trim tok). split; [apply trim_stripped|]. destruct H as [[H|H]|H]; auto.
    destruct (op_infix tb op) as [s|]; [|discriminate]. apply String.eqb_eq in H. subst; auto.
  - intros (t & Ht & H). apply stripped_trim in Ht. subst t. destruct H as [H|[H|H]]; auto. rewrite H, String.eqb_refl. auto.
Qed.

(** ** C16 *)
(** A list of matches decides the answer. *)
Lemma unique_match_spec tb tok ms (P : opid -> Prop) : NoDup ms -> (forall op, In op ms <-> P op) ->
  match unique_match tb tok ms with
  | inl op => P op /\ forall op', P op' -> op' = op
  | inr (Unknown t) => stripped tok t /\ forall op, ~ P op
  | inr (Ambiguous t cs) => stripped tok t /\ (exists a b, P a /\ P b /\ a <> b)
      /\ exists ms', NoDup ms' /\ (forall op, In op ms' <-> P op) /\ cs = map (op_name tb) ms'
  end.
Proof.
  intros Hnd HP. destruct ms as [|a [|b ms]]; cbn [unique_match].
  - split; [apply trim_stripped|]. intros op Hop. now apply HP in Hop.
  - split; [apply HP; left; auto|]. intros op Hop. apply HP in Hop as [->|[]]. auto.
  - split; [apply trim_stripped|]. split; [|exists (a :: b :: ms); auto].
    exists a, b. split; [apply HP; left; auto|]. split; [apply HP; right; left; auto|].
    inversion Hnd as [|? ? H1 H2]; subst. intros ->. apply H1. left; auto.
Qed.

Lemma nodup_map_pair a l : NoDup l -> NoDup (map (fun id => (a, id)) l : list opid).
Proof.
  induction 1 as [|x l H1 H2 IH]; cbn; constructor; auto. intros Hin. apply in_map_iff in Hin as (y & E & Hy). injection E as ->. auto.
Qed.

Lemma all_ops_in tb op : In op (all_ops tb) <-> op_of tb op.
Proof.
  unfold all_ops, op_of. rewrite in_flat_map. split.
  - intros (a & Ha & Hin). apply in_map_iff in Hin as (id & <- & Hid). apply in_seq in Ha. cbn. split; [lia|auto].
  - intros [H1 H2]. exists (fst op). split; [apply in_seq; lia|]. apply in_map_iff. exists (snd op). destruct op; auto.
Qed.

Lemma all_ops_nodup tb : no_dup_ops tb -> NoDup (all_ops tb).
Proof.
  intros H. unfold all_ops. generalize (max_ar tb) 1. intros n. induction n as [|n IH]; intros s; cbn [seq flat_map]; [constructor|].
  assert (G : forall (l m : list opid), NoDup l -> NoDup m -> (forall x, In x l -> ~ In x m) -> NoDup (l ++ m)).
  { induction l as [|x l IHl]; intros m N1 N2 Hd; cbn; auto. inversion N1; subst. constructor.
    - intros Hin. apply in_app_or in Hin as [Hin|Hin]; [auto|]. apply (Hd x); auto. left; auto.
    - apply IHl; auto. intros y Hy. apply Hd. right; auto. }
  apply G; [apply nodup_map_pair, H|apply IH|].
  intros [a id] Hx Hy. apply in_map_iff in Hx as (i & E & _). injection E as <- <-.
  apply in_flat_map in Hy as (a & Ha & Hy). apply in_map_iff in Hy as (j & E & _). injection E as -> _. apply in_seq in Ha. lia.
Qed.

Theorem C16_lookup : forall (tb : optable) (tok : string), no_dup_ops tb ->
  match lookup tb tok with
  | inl op => (op_of tb op /\ names_op tb tok op) /\ forall op', op_of tb op' /\ names_op tb tok op' -> op' = op
  | inr (Unknown t) => stripped tok t /\ forall op, ~ (op_of tb op /\ names_op tb tok op)
  | inr (Ambiguous t cs) => stripped tok t
      /\ (exists a b, (op_of tb a /\ names_op tb tok a) /\ (op_of tb b /\ names_op tb tok b) /\ a <> b)
      /\ exists ms, NoDup ms /\ (forall op, In op ms <-> op_of tb op /\ names_op tb tok op) /\ cs = map (op_name tb) ms
  end.
Proof.
  intros tb tok H. unfold lookup. apply (unique_match_spec tb tok (lookup_all tb tok) (fun op => op_of tb op /\ names_op tb tok op)).
  - apply NoDup_filter. now apply all_ops_nodup.
  - intros op. unfold lookup_all. rewrite filter_In, all_ops_in, matches_token_spec. tauto.
Qed.

Theorem C16_lookup_with_arity : forall (tb : optable) (tok : string) (a : nat), no_dup_ops tb ->
  let here op := fst op = a /\ In (snd op) (ops_with_arity tb a) /\ names_op tb tok op in
  match lookup_with_arity tb tok a with
  | inl op => here op /\ forall op', here op' -> op' = op
  | inr (Unknown t) => stripped tok t /\ forall op, ~ here op
  | inr (Ambiguous t cs) => stripped tok t
      /\ (exists a b, here a /\ here b /\ a <> b)
      /\ exists ms, NoDup ms /\ (forall op, In op ms <-> here op) /\ cs = map (op_name tb) ms
  end.
Proof.
  intros tb tok a H here. unfold lookup_with_arity. apply unique_match_spec.
  - apply NoDup_filter, nodup_map_pair, H.
  - intros [a' id]. rewrite filter_In, matches_token_spec, in_map_iff. unfold here. cbn [fst snd]. split.
    + intros ((i & E & Hi) & Hn). injection E as <- <-. auto.
    + intros (-> & Hi & Hn). split; auto. exists id. auto.
Qed.

(** The order in which the tables list the operators does not matter. *)
Theorem C16_order_independent : forall (tb tb' : optable) (tok : string), no_dup_ops tb ->
  max_ar tb' = max_ar tb -> op_name tb' = op_name tb -> op_display tb' = op_display tb -> op_infix tb' = op_infix tb ->
  (forall a, Permutation (ops_with_arity tb a) (ops_with_arity tb' a)) ->
  let same (r r' : opid + lookup_error) :=
    match r, r' with
    | inl op, inl op' => op = op'
    | inr (Unknown t), inr (Unknown t') => t = t'
    | inr (Ambiguous t cs), inr (Ambiguous t' cs') => t = t' /\ Permutation cs cs'
    | _, _ => False
    end in
  same (lookup tb tok) (lookup tb' tok) /\ forall a, same (lookup_with_arity tb tok a) (lookup_with_arity tb' tok a).
Proof.
  intros tb tb' tok Hnd E1 E2 E3 E4 Hp same.
  assert (G : forall ms ms', Permutation ms ms' -> same (unique_match tb tok ms) (unique_match tb' tok ms')).
  { intros ms ms' P. destruct ms as [|x [|y ms]].
    - apply Permutation_nil in P. subst. cbn. auto.
    - apply Permutation_length_1_inv in P. subst. cbn. auto.
    - pose proof (Permutation_length P) as L. destruct ms' as [|x' [|y' ms']]; try discriminate L. cbn. split; auto.
      rewrite E2. apply (Permutation_map (op_name tb)) in P. exact P. }
  assert (M : forall op, matches_token tb' op tok = matches_token tb op tok).
  { intros op. unfold matches_token. now rewrite E2, E3, E4. }
  assert (FP : forall (l l' : list opid), Permutation l l' ->
    Permutation (filter (fun op => matches_token tb op tok) l) (filter (fun op => matches_token tb' op tok) l')).
  { induction 1 as [|x l l' _ IH|x y l|l l' l'' _ IH1 _ IH2]; cbn [filter]; auto.
    - rewrite M. destruct (matches_token tb x tok); auto.
    - rewrite !M. rewrite (filter_ext _ _ M). destruct (matches_token tb y tok), (matches_token tb x tok); auto. constructor.
    - rewrite IH1, <- IH2. rewrite (filter_ext _ _ M). apply Permutation_refl. }
  split.
  - apply G. unfold lookup_all. apply FP. unfold all_ops. rewrite E1. generalize (seq 1 (max_ar tb)). intros l.
    induction l as [|a l IH]; cbn [flat_map]; auto. apply Permutation_app; auto. now apply Permutation_map.
  - intros a. apply G, FP. now apply Permutation_map.
Qed.

(** ** C17 *)
(** The registry holding exactly [ops], each under its arity, in order. *)
Definition registry_of (D : nat) (ops : list opid) : registry :=
  map (fun a => filter (fun op => fst op =? S a) ops) (seq 0 D).

Lemma registry_of_push D ops op : 1 <= fst op <= D -> reg_push D (registry_of D ops) op = Ok (registry_of D (ops ++ [op])).
Proof.
  intros H. unfold reg_push. destruct (Nat.leb_spec 1 (fst op)); [|lia]. destruct (Nat.leb_spec (fst op) D); [|lia]. cbn [andb assert_ bind].
  assert (E : nth_error (registry_of D ops) (fst op - 1) = Some (filter (fun o => fst o =? fst op) ops)).
  { unfold registry_of. rewrite nth_error_map.
    rewrite (nth_error_nth' (seq 0 D) 0) by (rewrite seq_length; lia). rewrite seq_nth by lia. cbn [option_map].
    do 2 f_equal. replace (S (0 + (fst op - 1))) with (fst op) by lia. reflexivity. }
  unfold index. rewrite E. cbn [expect bind]. unfold set_index.
  assert (L : forall o, List.length (registry_of D o) = D) by (intros; unfold registry_of; now rewrite map_length, seq_length).
  rewrite L. destruct (Nat.ltb_spec (fst op - 1) D); [|lia]. f_equal.
  apply nth_error_ext. intros p. destruct (Nat.eq_dec p (fst op - 1)) as [->|Hne].
  - rewrite nth_error_upd_same by (rewrite L; lia). unfold registry_of. rewrite nth_error_map.
    rewrite (nth_error_nth' (seq 0 D) 0) by (rewrite seq_length; lia). rewrite seq_nth by lia. cbn [option_map]. f_equal.
    replace (S (0 + (fst op - 1))) with (fst op) by lia. rewrite filter_app. cbn [filter]. now rewrite Nat.eqb_refl.
  - rewrite nth_error_upd_other by auto. unfold registry_of. rewrite !nth_error_map.
    destruct (nth_error (seq 0 D) p) as [a|] eqn:Ea; auto. cbn [option_map]. f_equal. rewrite filter_app. cbn [filter].
    assert (a = p).
    { assert (p < D) by (rewrite <- (seq_length D 0); apply nth_error_Some; congruence).
      rewrite (nth_error_nth' (seq 0 D) 0) in Ea by (rewrite seq_length; lia). rewrite seq_nth in Ea by lia. injection Ea; lia. }
    subst a. destruct (Nat.eqb_spec (fst op) (S p)); [lia|]. now rewrite app_nil_r.
Qed.

Lemma registry_new D : reg_new D = registry_of D [].
Proof.
  unfold reg_new, registry_of. cbn [filter]. generalize 0. induction D as [|D IH]; intros s; cbn; auto. now rewrite (IH (S s)).
Qed.

Lemma existsb_seen op seen : existsb (opid_eqb op) seen = true <-> In op seen.
Proof.
  rewrite existsb_exists. split.
  - intros (x & Hx & E). unfold opid_eqb in E. apply andb_prop in E as [E1 E2]. apply Nat.eqb_eq in E1, E2. destruct x, op; cbn in *; subst; auto.
  - intros H. exists op. split; auto. unfold opid_eqb. now rewrite !Nat.eqb_refl.
Qed.

(** Outcome of resolving a list of tokens one after the other: either all resolve, to pairwise distinct operators of
    arity at most [D], or the first failing token determines the error. *)
Inductive resolved {A} (res1 : A -> opid + lookup_error) (tokstr : A -> string) (D : nat) : list A -> list opid -> list opid + select_error -> Prop :=
| rs_done : forall ops, resolved res1 tokstr D [] ops (inl ops)
| rs_next : forall tok rest ops op r, res1 tok = inl op -> fst op <= D -> ~ In op ops ->
    resolved res1 tokstr D rest (ops ++ [op]) r -> resolved res1 tokstr D (tok :: rest) ops r
| rs_lookup : forall tok rest ops e, res1 tok = inr e -> resolved res1 tokstr D (tok :: rest) ops (inr (ELookup e))
| rs_large : forall tok rest ops op, res1 tok = inl op -> D < fst op ->
    resolved res1 tokstr D (tok :: rest) ops (inr (EArityTooLarge (tokstr tok) (fst op) D))
| rs_dup : forall tok rest ops op, res1 tok = inl op -> fst op <= D -> In op ops ->
    resolved res1 tokstr D (tok :: rest) ops (inr (EDuplicate (tokstr tok))).

Lemma lookup_pos tb tok op : lookup tb tok = inl op -> 1 <= fst op.
Proof.
  unfold lookup, lookup_all. intros H. assert (Hin : In op (filter (fun op => matches_token tb op tok) (all_ops tb))).
  { destruct (filter _ _) as [|x [|y l]]; cbn in H; try discriminate. injection H as ->. left; auto. }
  apply filter_In in Hin as [Hin _]. apply all_ops_in in Hin. destruct Hin; lia.
Qed.
Lemma lookup_arity tb tok a op : lookup_with_arity tb tok a = inl op -> fst op = a.
Proof.
  unfold lookup_with_arity. intros H. assert (Hin : In op (filter (fun op => matches_token tb op tok) (map (fun id => (a, id)) (ops_with_arity tb a)))).
  { destruct (filter _ _) as [|x [|y l]]; cbn in H; try discriminate. injection H as ->. left; auto. }
  apply filter_In in Hin as [Hin _]. apply in_map_iff in Hin as (i & <- & _). reflexivity.
Qed.

Lemma from_names_loop_spec tb D names : forall ops seen, (forall op, In op seen <-> In op ops) ->
  exists r, resolved (lookup tb) (fun t => t) D names ops r
    /\ from_names_loop tb D names (registry_of D ops) seen
       = Ok (match r with inl ops' => inl (registry_of D ops') | inr e => inr e end).
Proof.
  induction names as [|tok rest IH]; intros ops seen Hs; cbn [from_names_loop].
  - exists (inl ops). split; [constructor|reflexivity].
  - destruct (lookup tb tok) as [op|e] eqn:E.
    + pose proof (lookup_pos _ _ _ E) as Hpos. destruct (Nat.ltb_spec D (fst op)) as [Hlt|Hle].
      { exists (inr (EArityTooLarge tok (fst op) D)). split; [|reflexivity]. now apply (rs_large (lookup tb) (fun t => t)). }
      destruct (existsb (opid_eqb op) seen) eqn:Ex.
      { apply existsb_seen in Ex. apply Hs in Ex. exists (inr (EDuplicate tok)). split; [|reflexivity]. now apply (rs_dup (lookup tb) (fun t => t) D tok rest ops op). }
      assert (Hni : ~ In op ops) by (intros Hin; apply Hs in Hin; apply existsb_seen in Hin; congruence).
      rewrite registry_of_push by lia. cbn [bind].
      destruct (IH (ops ++ [op]) (op :: seen)) as (r & Hr & Er).
      { intros o. rewrite in_app_iff. cbn. rewrite Hs. tauto. }
      exists r. split; [now apply (rs_next _ _ _ _ _ _ op)|exact Er].
    + exists (inr (ELookup e)). split; [now constructor|reflexivity].
Qed.

Lemma by_arity_loop_spec tb D toks : (forall p, In p toks -> 1 <= fst p) -> forall ops seen, (forall op, In op seen <-> In op ops) ->
  exists r, resolved (fun p => lookup_with_arity tb (snd p) (fst p)) snd D toks ops r
    /\ by_arity_loop tb D toks (registry_of D ops) seen
       = Ok (match r with inl ops' => inl (registry_of D ops') | inr e => inr e end).
Proof.
  induction toks as [|[a tok] rest IH]; intros Hpos ops seen Hs; cbn [by_arity_loop].
  - exists (inl ops). split; [constructor|reflexivity].
  - destruct (lookup_with_arity tb tok a) as [op|e] eqn:E.
    + pose proof (lookup_arity _ _ _ _ E) as Ha. rewrite Ha, Nat.eqb_refl. cbn [negb].
      specialize (Hpos (a, tok) (or_introl eq_refl)) as Hp1. cbn in Hp1.
      destruct (Nat.ltb_spec D a) as [Hlt|Hle].
      { exists (inr (EArityTooLarge tok a D)). split; [|reflexivity]. pose proof (rs_large (fun p => lookup_with_arity tb (snd p) (fst p)) snd D (a, tok) rest ops op E ltac:(lia)) as G. rewrite Ha in G. exact G. }
      destruct (existsb (opid_eqb op) seen) eqn:Ex.
      { apply existsb_seen in Ex. apply Hs in Ex. exists (inr (EDuplicate tok)). split; [|reflexivity]. exact (rs_dup (fun p => lookup_with_arity tb (snd p) (fst p)) snd D (a, tok) rest ops op E ltac:(lia) Ex). }
      assert (Hni : ~ In op ops) by (intros Hin; apply Hs in Hin; apply existsb_seen in Hin; congruence).
      rewrite registry_of_push by lia. cbn [bind].
      destruct (IH (fun p Hp => Hpos p (or_intror Hp)) (ops ++ [op]) (op :: seen)) as (r & Hr & Er).
      { intros o. rewrite in_app_iff. cbn. rewrite Hs. tauto. }
      exists r. split; [|exact Er]. exact (rs_next (fun p => lookup_with_arity tb (snd p) (fst p)) snd D (a, tok) rest ops op r E ltac:(lia) Hni Hr).
    + exists (inr (ELookup e)). split; [|reflexivity]. exact (rs_lookup (fun p => lookup_with_arity tb (snd p) (fst p)) snd D (a, tok) rest ops e E).
Qed.

(** A successful resolution: the tokens' operators in order, pairwise distinct, of arity at most [D]. *)
Lemma resolved_inl {A} (res1 : A -> opid + lookup_error) tokstr D toks ops ops' :
  resolved res1 tokstr D toks ops (inl ops') -> NoDup ops -> Forall (fun op => fst op <= D) ops ->
  exists new, ops' = ops ++ new /\ Forall2 (fun tok op => res1 tok = inl op) toks new /\ NoDup ops' /\ Forall (fun op => fst op <= D) ops'.
Proof.
  intros H. remember (inl ops') as r eqn:Er. induction H as [ops0|tok rest ops0 op r E Hd Hni Hr IH| | |]; try discriminate; intros N Hf.
  - injection Er as ->. exists []. rewrite app_nil_r. auto.
  - destruct (IH Er) as (new & -> & H2 & N' & F').
    + apply NoDup_Add with (a := op) (l := ops0); [|split; auto]. rewrite <- (app_nil_r ops0) at 1. apply Add_app.
    + apply Forall_app. split; auto.
    + rewrite <- app_assoc in *. exists (op :: new). split; [reflexivity|]. split; [constructor; auto|]. auto.
Qed.

Theorem C17_from_names : forall (tb : optable) (D : nat) (names : list string),
  exists r, from_names tb D names = Ok r
  /\ match r with
     | inl reg => names <> [] /\ exists ops, Forall2 (fun tok op => lookup tb tok = inl op) names ops
                  /\ NoDup ops /\ Forall (fun op => 1 <= fst op <= D) ops /\ reg = registry_of D ops
     | inr EEmpty => names = []
     | inr (ELookup e) => exists tok, In tok names /\ lookup tb tok = inr e
     | inr (EArityTooLarge tok a D') => D' = D /\ D < a /\ In tok names /\ exists id, lookup tb tok = inl (a, id)
     | inr (EDuplicate tok) => exists l r tok' op, names = l ++ tok :: r /\ In tok' l /\ lookup tb tok = inl op /\ lookup tb tok' = inl op
     | inr (EArityMismatch _ _ _) => False
     end.
Proof.
  intros tb D names. unfold from_names. destruct names as [|t0 ns]; [eexists; split; [reflexivity|]; reflexivity|].
  set (names := t0 :: ns). rewrite registry_new. destruct (from_names_loop_spec tb D names [] []) as (r & Hr & E); [tauto|].
  rewrite E. eexists. split; [reflexivity|]. destruct r as [ops|e].
  - split; [discriminate|]. destruct (resolved_inl _ _ _ _ _ _ Hr (NoDup_nil _) (Forall_nil _)) as (new & -> & H2 & N & F').
    cbn [app] in *. exists new. split; auto. split; auto. split; auto.
    rewrite Forall_forall in *. intros op Hop. split; [|auto].
    clear -H2 Hop. induction H2 as [|tok o l l' Ho _ IH]; [destruct Hop|]. destruct Hop as [->|Hop]; auto. eapply lookup_pos; eauto.
  - assert (G : forall l ops rest r, resolved (lookup tb) (fun t => t) D rest ops r -> names = l ++ rest ->
       (forall op, In op ops -> exists tok, In tok l /\ lookup tb tok = inl op) ->
       match r with
       | inl _ => True
       | inr EEmpty => False
       | inr (ELookup e) => exists tok, In tok names /\ lookup tb tok = inr e
       | inr (EArityTooLarge tok a D') => D' = D /\ D < a /\ In tok names /\ exists id, lookup tb tok = inl (a, id)
       | inr (EDuplicate tok) => exists l r tok' op, names = l ++ tok :: r /\ In tok' l /\ lookup tb tok = inl op /\ lookup tb tok' = inl op
       | inr (EArityMismatch _ _ _) => False
       end).
    { clear. intros l ops rest r H. revert l. induction H as [ops|tok rest ops op r E Hd Hni Hr IH|tok rest ops e E|tok rest ops op E Hd|tok rest ops op E Hd Hin]; intros l En Hl; auto.
      - apply (IH (l ++ [tok])); [now rewrite <- app_assoc|]. intros o Ho. apply in_app_or in Ho as [Ho|[<-|[]]].
        + destruct (Hl o Ho) as (t & Ht & E'). exists t. split; auto. apply in_or_app; auto.
        + exists tok. split; auto. apply in_or_app. right. left. auto.
      - exists tok. split; auto. rewrite En. apply in_or_app. right. left. auto.
      - split; auto. split; auto. split; [rewrite En; apply in_or_app; right; left; auto|]. exists (snd op). destruct op; auto.
      - destruct (Hl op Hin) as (t & Ht & E'). exists l, rest, t, op. auto. }
    specialize (G [] [] names _ Hr eq_refl). cbn in G. specialize (G ltac:(tauto)). destruct e; auto; try contradiction.
Qed.

Theorem C17_from_names_by_arity : forall (tb : optable) (D : nat) (unary binary ternary : list string),
  let toks := map (pair 1) unary ++ map (pair 2) binary ++ map (pair 3) ternary in
  exists r, from_names_by_arity tb D unary binary ternary = Ok r
  /\ match r with
     | inl reg => toks <> [] /\ exists ops, Forall2 (fun p op => fst op = fst p /\ lookup_with_arity tb (snd p) (fst p) = inl op) toks ops
                  /\ NoDup ops /\ Forall (fun op => 1 <= fst op <= D) ops /\ reg = registry_of D ops
     | inr EEmpty => toks = []
     | inr (ELookup e) => exists a tok, In (a, tok) toks /\ lookup_with_arity tb tok a = inr e
     | inr (EArityTooLarge tok a D') => D' = D /\ D < a /\ In (a, tok) toks
     | inr (EDuplicate tok) => exists l r a tok' op, toks = l ++ (a, tok) :: r /\ In (a, tok') l
           /\ lookup_with_arity tb tok a = inl op /\ lookup_with_arity tb tok' a = inl op
     | inr (EArityMismatch _ _ _) => False
     end.
Proof.
  intros tb D unary binary ternary toks.
  destruct toks as [|p0 ps] eqn:Et.
  { assert (unary = [] /\ binary = [] /\ ternary = []) as (-> & -> & ->).
    { unfold toks in Et. apply app_eq_nil in Et as [E1 E2]. apply app_eq_nil in E2 as [E2 E3].
      apply map_eq_nil in E1, E2, E3. auto. }
    eexists. split; [reflexivity|]. reflexivity. }
  rewrite <- Et.
  assert (E0 : from_names_by_arity tb D unary binary ternary = by_arity_loop tb D toks (reg_new D) []).
  { unfold from_names_by_arity. destruct unary, binary, ternary; auto. discriminate Et. }
  rewrite E0, registry_new. destruct (by_arity_loop_spec tb D toks) with (ops := @nil opid) (seen := @nil opid) as (r & Hr & E); [|tauto|].
  { intros p Hp. unfold toks in Hp. apply in_app_or in Hp as [Hp|Hp]; [|apply in_app_or in Hp as [Hp|Hp]];
      apply in_map_iff in Hp as (x & <- & _); cbn; lia. }
  rewrite E. eexists. split; [reflexivity|]. destruct r as [ops|e].
  - split; [congruence|]. destruct (resolved_inl _ _ _ _ _ _ Hr (NoDup_nil _) (Forall_nil _)) as (new & -> & H2 & N & F').
    cbn [app] in *. exists new.
    assert (H2' : Forall2 (fun p op => fst op = fst p /\ lookup_with_arity tb (snd p) (fst p) = inl op) toks new).
    { clear -H2. induction H2 as [|p o l l' Ho _ IH]; constructor; auto. split; auto. eapply lookup_arity; eauto. }
    split; auto. split; auto. split; auto.
    assert (Hp : forall p, In p toks -> 1 <= fst p).
    { intros p Hp. unfold toks in Hp. apply in_app_or in Hp as [Hp|Hp]; [|apply in_app_or in Hp as [Hp|Hp]];
      apply in_map_iff in Hp as (x & <- & _); cbn; lia. }
    rewrite Forall_forall in *. intros op Hop. split; [|auto].
    clear -H2' Hop Hp. induction H2' as [|p o l l' [Ho _] _ IH]; [destruct Hop|]. destruct Hop as [->|Hop].
    + rewrite Ho. apply Hp. left; auto.
    + apply IH; auto. intros q Hq. apply Hp. right; auto.
  - assert (G : forall l ops rest r, resolved (fun p => lookup_with_arity tb (snd p) (fst p)) snd D rest ops r -> toks = l ++ rest ->
       (forall op, In op ops -> exists p, In p l /\ lookup_with_arity tb (snd p) (fst p) = inl op) ->
       match r with
       | inl _ => True
       | inr EEmpty => False
       | inr (ELookup e) => exists a tok, In (a, tok) toks /\ lookup_with_arity tb tok a = inr e
       | inr (EArityTooLarge tok a D') => D' = D /\ D < a /\ In (a, tok) toks
       | inr (EDuplicate tok) => exists l r a tok' op, toks = l ++ (a, tok) :: r /\ In (a, tok') l
             /\ lookup_with_arity tb tok a = inl op /\ lookup_with_arity tb tok' a = inl op
       | inr (EArityMismatch _ _ _) => False
       end).
    { clear. intros l ops rest r H. revert l. induction H as [ops|[a tok] rest ops op r E Hd Hni Hr IH|[a tok] rest ops e E|[a tok] rest ops op E Hd|[a tok] rest ops op E Hd Hin]; intros l En Hl; auto; cbn [fst snd] in *.
      - apply (IH (l ++ [(a, tok)])); [now rewrite <- app_assoc|]. intros o Ho. apply in_app_or in Ho as [Ho|[<-|[]]].
        + destruct (Hl o Ho) as (t & Ht & E'). exists t. split; auto. apply in_or_app; auto.
        + exists (a, tok). split; auto. apply in_or_app. right. left. auto.
      - exists a, tok. split; auto. rewrite En. apply in_or_app. right. left. auto.
      - pose proof (lookup_arity _ _ _ _ E) as Ha. rewrite Ha in *. split; auto. split; auto. rewrite En; apply in_or_app; right; left; auto.
      - destruct (Hl op Hin) as ([a' t] & Ht & E'). cbn [fst snd] in E'. pose proof (lookup_arity _ _ _ _ E). pose proof (lookup_arity _ _ _ _ E').
        assert (Ea : a' = a) by congruence. rewrite Ea in Ht, E'. exists l, rest, a, t, op. repeat split; assumption. }
    specialize (G [] [] toks _ Hr eq_refl). cbn in G. specialize (G ltac:(tauto)). destruct e; auto; try contradiction.
Qed.

(** Sampling. *)
Definition ops_of_arity (reg : registry) (a : nat) : list opid := nth (a - 1) reg [].
Definition count_up_to (reg : registry) (n : nat) : nat :=
  fold_right (fun a s => List.length (ops_of_arity reg a) + s) 0 (seq 1 n).

Lemma nops_ok reg a : 1 <= a <= List.length reg -> nops reg a = Ok (List.length (ops_of_arity reg a)).
Proof.
  intros H. destruct a as [|a]; [lia|]. cbn [nops]. unfold index, ops_of_arity. replace (S a - 1) with a by lia.
  rewrite (nth_error_nth' reg []) by lia. reflexivity.
Qed.

Lemma sum_nops_ok reg n : n <= List.length reg -> sum_nops reg n = Ok (count_up_to reg n).
Proof.
  intros H. unfold sum_nops, count_up_to.
  assert (G : forall l acc, (forall a, In a l -> 1 <= a <= List.length reg) ->
    foldM (fun s a => let! n := nops reg a in Ok (s + n)) l acc = Ok (acc + fold_right (fun a s => List.length (ops_of_arity reg a) + s) 0 l)).
  { induction l as [|a l IH]; intros acc Hl; cbn [foldM fold_right]; [now rewrite Nat.add_0_r|].
    rewrite nops_ok by (apply Hl; left; auto). cbn [bind]. rewrite IH by (intros; apply Hl; right; auto). f_equal. lia. }
  rewrite G; [reflexivity|]. intros a Ha. apply in_seq in Ha. lia.
Qed.

Lemma count_app reg n : count_up_to reg (S n) = count_up_to reg n + List.length (ops_of_arity reg (S n)).
Proof.
  unfold count_up_to. rewrite seq_S, fold_right_app. cbn [fold_right].
  assert (G : forall l acc, fold_right (fun a s => List.length (ops_of_arity reg a) + s) acc l = fold_right (fun a s => List.length (ops_of_arity reg a) + s) 0 l + acc).
  { induction l as [|a l IH]; intros acc; cbn [fold_right]; auto. rewrite (IH acc). lia. }
  rewrite G. replace (1 + n) with (S n) by lia. lia.
Qed.

Lemma count_mono reg n m : n <= m -> count_up_to reg n <= count_up_to reg m.
Proof. induction 1; auto. rewrite count_app. lia. Qed.

Lemma pick_arity_spec reg n : forall s r, s + n <= S (List.length reg) -> 1 <= s ->
  count_up_to reg (s - 1) + r < count_up_to reg (s + n - 1) ->
  exists a, pick_arity reg (seq s n) r = Ok a /\ s <= a < s + n
    /\ count_up_to reg (a - 1) <= count_up_to reg (s - 1) + r < count_up_to reg a.
Proof.
  induction n as [|n IH]; intros s r Hs H1 Hr; cbn [seq pick_arity].
  - rewrite Nat.add_0_r in Hr. lia.
  - rewrite nops_ok by lia. cbn [bind].
    assert (Ec : count_up_to reg s = count_up_to reg (s - 1) + List.length (ops_of_arity reg s)).
    { replace s with (S (s - 1)) at 1 3 by lia. apply count_app. }
    destruct (Nat.ltb_spec r (List.length (ops_of_arity reg s))) as [Hlt|Hge].
    + exists s. split; auto. split; [lia|]. lia.
    + destruct (IH (S s) (r - List.length (ops_of_arity reg s))) as (a & E & Ha & Hb).
      * lia.
      * lia.
      * replace (S s - 1) with s by lia. replace (S s + n - 1) with (s + S n - 1) by lia. lia.
      * exists a. split; auto. split; [lia|]. replace (S s - 1) with s in Hb by lia. lia.
Qed.

(** Sampling an arity: defined exactly when some operator of arity at most the bound exists; the arity [a] is drawn on
    as many of the equally likely outcomes [r] of the underlying draw as there are operators of arity [a]. *)
Theorem C17_sample_arity : forall (T : Type) (D : nat) (reg : registry) (g : rng T) (max : nat),
  List.length reg = D ->
  let m := Nat.min max D in
  if 0 <? count_up_to reg m then
    exists a r g', sample_arity D reg g max = Ok (a, g') /\ usize_range g 0 (count_up_to reg m) = Ok (r, g')
      /\ 1 <= a <= m /\ ops_of_arity reg a <> []
      /\ count_up_to reg (a - 1) <= r < count_up_to reg (a - 1) + List.length (ops_of_arity reg a)
  else sample_arity D reg g max = Panic.
Proof.
  intros T D reg g max HD m. unfold sample_arity. fold m. rewrite sum_nops_ok by (subst m; lia). cbn [bind].
  destruct (Nat.ltb_spec 0 (count_up_to reg m)) as [Hpos|Hz]; [|reflexivity]. cbn [assert_ bind].
  destruct (usize_range_ok g 0 (count_up_to reg m) Hpos) as (r & g' & E & Hr). rewrite E. cbn [bind].
  destruct (pick_arity_spec reg m 1 r) as (a & Ea & Ha & Hb); [subst m; lia|lia| |].
  { replace (1 - 1) with 0 by lia. replace (1 + m - 1) with m by lia. unfold count_up_to at 1. cbn. lia. }
  rewrite Ea. cbn [bind]. exists a, r, g'. split; auto. split; auto. split; [lia|].
  replace (1 - 1) with 0 in Hb by lia. change (count_up_to reg 0) with 0 in Hb.
  assert (Ec : count_up_to reg a = count_up_to reg (a - 1) + List.length (ops_of_arity reg a)).
  { replace a with (S (a - 1)) at 1 3 by lia. apply count_app. }
  split; [|lia]. intros Hn. rewrite Hn in Ec. cbn in Ec. lia.
Qed.

Theorem C17_sample_op : forall (T : Type) (D : nat) (reg : registry) (g : rng T) (a : nat),
  List.length reg = D -> 1 <= a <= D ->
  match ops_of_arity reg a with
  | [] => sample_op reg g a = Panic
  | ops => exists op g', sample_op reg g a = Ok (op, g') /\ In op ops
  end.
Proof.
  intros T D reg g a HD Ha. destruct a as [|a]; [lia|]. cbn [sample_op]. unfold ops_of_arity. replace (S a - 1) with a by lia.
  assert (Hv : index reg a = Ok (nth a reg [])) by (unfold index; now rewrite (nth_error_nth' reg []) by lia).
  rewrite Hv. cbn [bind]. destruct (nth a reg []) as [|op0 ops] eqn:Ev; [reflexivity|].
  destruct (usize_range_ok g 0 (List.length (op0 :: ops))) as (i & g' & E & Hi); [cbn; lia|]. rewrite E. cbn [bind].
  unfold index. destruct (nth_error (op0 :: ops) i) as [op|] eqn:En; [|apply nth_error_None in En; lia]. cbn [expect bind].
  exists op, g'. split; auto. eapply nth_error_In; eauto.
Qed.

(** ** Cases *)
Definition demo_table : optable := mkTable 2
  (fun a => match a with 1 => [22; 9] | 2 => [0; 7] | _ => [] end)
  (fun op => match op with (1, 22) => "neg" | (1, 9) => "cos" | (2, 0) => "add" | (2, 7) => "sub" | _ => "unknown_op" end)%string
  (fun op => match op with (1, 22) => "-" | (1, 9) => "cos" | (2, 0) => "+" | (2, 7) => "-" | _ => "unknown_op" end)%string
  (fun op => match op with (2, 0) => Some "+" | (2, 7) => Some "-" | _ => None end)%string.

Example C16_case : no_dup_ops demo_table
  /\ lookup demo_table " COS "%string = inl (1, 9)
  /\ lookup demo_table "-"%string = inr (Ambiguous "-" ["neg"; "sub"])%string
  /\ lookup_with_arity demo_table "-"%string 2 = inl (2, 7)
  /\ lookup demo_table "tan"%string = inr (Unknown "tan")%string.
Proof.
  split; [|repeat split]. intros [|[|[|a]]]; cbn; repeat constructor; cbn; intuition congruence.
Qed.

Example C17_case :
  from_names demo_table 2 ["cos"; "+"]%string = Ok (inl [[(1, 9)]; [(2, 0)]])
  /\ from_names demo_table 2 ["cos"; "Cos"]%string = Ok (inr (EDuplicate "Cos"%string))
  /\ from_names demo_table 1 ["+"]%string = Ok (inr (EArityTooLarge "+"%string 2 1))
  /\ from_names_by_arity demo_table 2 ["-"]%string ["-"; "add"]%string [] = Ok (inl [[(1, 22)]; [(2, 7); (2, 0)]]).
Proof. repeat split. Qed.

Print Assumptions C16_lookup.
Print Assumptions C16_lookup_with_arity.
Print Assumptions C16_order_independent.
Print Assumptions C17_from_names.
Print Assumptions C17_from_names_by_arity.
Print Assumptions C17_sample_arity.
Print Assumptions C17_sample_op.
