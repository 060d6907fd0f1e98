(** Property C44: the hall-of-fame table shows every character of every equation. *)
From Verif Require Import Base BaseLemmas Display.

(** ** Specification *)

(** Well-formed UTF-8 at the level of character lengths: a lead byte followed by at most three continuation bytes, and so on. *)
Inductive utf8 : list nat -> Prop :=
| utf8_nil : utf8 []
| utf8_char lead conts s : is_cont lead = false -> Forall (fun b => is_cont b = true) conts -> List.length conts <= 3 -> utf8 s ->
    utf8 (lead :: conts ++ s).

(** All but the last piece are followed by three dots. *)
Fixpoint dotted (pieces : list (list nat)) : list (list nat) :=
  match pieces with
  | [] => []
  | [p] => [p]
  | p :: rest => (p ++ [46; 46; 46]) :: dotted rest
  end.

(** A row of the table: the member's statistics next to the first line, blanks of the same width next to the others. *)
Definition laid_out (stats : list nat) (pieces : list (list nat)) : list (list nat) :=
  match dotted pieces with
  | [] => [stats]
  | first :: rest => (stats ++ first) :: map (fun l => repeat 32 (char_count stats) ++ l) rest
  end.

(** ** Proofs *)

Lemma filter_app_length {A} (f : A -> bool) a b : List.length (filter f (a ++ b)) = List.length (filter f a) + List.length (filter f b).
Proof. rewrite filter_app, app_length. reflexivity. Qed.
Lemma char_count_app a b : char_count (a ++ b) = char_count a + char_count b.
Proof. apply filter_app_length. Qed.
Lemma char_count_le s : char_count s <= List.length s.
Proof. unfold char_count. induction s as [|b s IH]; cbn; [lia|]. destruct (negb (is_cont b)); cbn; lia. Qed.
Lemma char_count_blanks n : char_count (repeat 32 n) = n.
Proof. unfold char_count. induction n; cbn; auto. Qed.

(** The character boundaries of a suffix. *)
Lemma boundary_shift pre s k : 0 < k -> is_char_boundary (pre ++ s) (List.length pre + k) = is_char_boundary s k.
Proof.
  intros Hk. unfold is_char_boundary. destruct (Nat.eqb_spec (List.length pre + k) 0); [lia|]. destruct (Nat.eqb_spec k 0); [lia|].
  rewrite nth_error_app2 by lia. replace (List.length pre + k - List.length pre) with k by lia. rewrite app_length.
  destruct (nth_error s k); auto. destruct (Nat.eqb_spec k (List.length s)); destruct (Nat.eqb_spec (List.length pre + k) (List.length pre + List.length s)); auto; lia.
Qed.
Lemma boundary_le s k : is_char_boundary s k = true -> k <= List.length s.
Proof.
  unfold is_char_boundary. destruct (Nat.eqb_spec k 0); [lia|]. destruct (nth_error s k) eqn:E; [|intros H; apply Nat.eqb_eq in H; lia].
  intros _. assert (nth_error s k <> None) by congruence. apply nth_error_Some in H. lia.
Qed.
Lemma utf8_head s : utf8 s -> s <> [] -> exists k, 1 <= k <= 4 /\ k <= List.length s /\ is_char_boundary s k = true.
Proof.
  intros H. inversion H as [|lead conts s' Hl Hc Hn Hs E]; subst; [congruence|]. intros _. exists (S (List.length conts)). split; [lia|].
  split; [cbn; rewrite app_length; lia|]. unfold is_char_boundary. cbn [Nat.eqb nth_error]. rewrite nth_error_app2, Nat.sub_diag by lia.
  inversion Hs as [|l2 c2 s2 Hl2 _ _ _ E2]; subst; cbn.
  - rewrite app_nil_r, Nat.eqb_refl. reflexivity.
  - rewrite Hl2. reflexivity.
Qed.
Lemma utf8_split s : utf8 s -> forall k, is_char_boundary s k = true -> utf8 (firstn k s) /\ utf8 (skipn k s).
Proof.
  induction 1 as [|lead conts s Hl Hc Hn Hs IH]; intros k Hk.
  - rewrite firstn_nil, skipn_nil. split; constructor.
  - destruct (Nat.eq_dec k 0) as [->|Hk0]; [split; [constructor|constructor; auto]|].
    assert (Hge : S (List.length conts) <= k).
    { destruct (Nat.le_gt_cases (S (List.length conts)) k) as [Hge|Hlt]; auto. exfalso. unfold is_char_boundary in Hk. destruct (Nat.eqb_spec k 0); [lia|].
      destruct k as [|k]; [lia|]. cbn [nth_error] in Hk. rewrite nth_error_app1 in Hk by lia. destruct (nth_error conts k) as [b|] eqn:E.
      - rewrite Forall_forall in Hc. rewrite (Hc b) in Hk; [discriminate|]. eapply nth_error_In; eauto.
      - apply nth_error_None in E. lia. }
    destruct k as [|k]; [lia|]. cbn [firstn skipn]. rewrite firstn_app, skipn_app, firstn_all2, skipn_all2 by lia. cbn [app].
    assert (Hb : is_char_boundary s (k - List.length conts) = true).
    { destruct (Nat.eq_dec (k - List.length conts) 0) as [E0|E0]; [rewrite E0; reflexivity|].
      rewrite <- (boundary_shift (lead :: conts)) by lia. cbn [List.length app]. replace (S (List.length conts) + (k - List.length conts)) with (S k) by lia. exact Hk. }
    apply IH in Hb as [H1 H2]. split; auto. constructor; auto.
Qed.
Lemma back_spec s start : forall e, start <= e -> start <= back_to_boundary s start e <= e
  /\ (back_to_boundary s start e = start \/ is_char_boundary s (back_to_boundary s start e) = true)
  /\ forall k, back_to_boundary s start e < k <= e -> is_char_boundary s k = false.
Proof.
  induction e as [|e IH]; intros H; [cbn; split; [lia|split; [left; lia|intros; lia]]|].
  cbn [back_to_boundary]. destruct (Nat.ltb_spec start (S e)); cbn [andb]; [|split; [lia|split; [left; lia|intros; lia]]].
  destruct (is_char_boundary s (S e)) eqn:E; cbn [negb]; [split; [lia|split; [right; exact E|intros; lia]]|].
  destruct IH as (A & B & C); [lia|]. split; [lia|]. split; auto. intros k Hk. destruct (Nat.eq_dec k (S e)) as [->|]; auto. apply C. lia.
Qed.
Lemma boundary_0_mid pre s : utf8 s -> is_char_boundary (pre ++ s) (List.length pre) = true.
Proof.
  intros Hs. unfold is_char_boundary. destruct (Nat.eqb_spec (List.length pre) 0); auto. rewrite nth_error_app2, Nat.sub_diag by lia.
  inversion Hs; subst; cbn; [rewrite app_length; cbn; apply Nat.eqb_eq; lia|]. rewrite H. reflexivity.
Qed.
Lemma dotted_cons p rest : rest <> [] -> dotted (p :: rest) = (p ++ [46; 46; 46]) :: dotted rest.
Proof. destruct rest; [congruence|reflexivity]. Qed.
Lemma concat_nil_all {A} (l : list (list A)) : Forall (fun p => p <> []) l -> List.concat l = [] -> l = [].
Proof. destruct l as [|p l]; auto. intros H E. inversion H; subst. cbn in E. apply app_eq_nil in E as [E _]. congruence. Qed.

Lemma wrap_loop_spec avail : 4 <= avail -> forall fuel pre s out, utf8 s -> List.length s < fuel ->
  exists pieces, wrap_loop fuel (pre ++ s) avail (List.length pre) out = Ok (out ++ dotted pieces)
    /\ List.concat pieces = s /\ Forall utf8 pieces /\ Forall (fun p => p <> []) pieces /\ Forall (fun p => List.length p <= avail) pieces.
Proof.
  intros Ha. induction fuel as [|fuel IH]; intros pre s out Hs Hf; [lia|]. cbn [wrap_loop]. rewrite app_length.
  destruct (Nat.leb_spec (List.length pre + List.length s) (List.length pre)) as [Hl|Hl].
  - destruct s; [|cbn in Hl; lia]. exists []. cbn. rewrite app_nil_r. repeat split; auto.
  - assert (Hne : s <> []) by (intros ->; cbn in Hl; lia).
    set (e0 := Nat.min (List.length pre + avail) (List.length pre + List.length s)).
    destruct (back_spec (pre ++ s) (List.length pre) e0) as (B1 & B2 & B3); [unfold e0; lia|].
    destruct (utf8_head s Hs Hne) as (k0 & K1 & K2 & K3).
    remember (back_to_boundary (pre ++ s) (List.length pre) e0) as e eqn:Ee. clear Ee.
    assert (Hgt : List.length pre + k0 <= e).
    { destruct (Nat.le_gt_cases (List.length pre + k0) e) as [|Hlt]; auto. exfalso.
      assert (Hk : is_char_boundary (pre ++ s) (List.length pre + k0) = false) by (apply B3; unfold e0; lia). rewrite boundary_shift in Hk by lia. congruence. }
    destruct (Nat.eqb_spec e (List.length pre)); [lia|]. destruct B2 as [B2|B2]; [lia|].
    set (k := e - List.length pre). assert (Hek : e = List.length pre + k) by (unfold k; lia).
    assert (Hk : is_char_boundary s k = true) by (rewrite <- (boundary_shift pre) by lia; rewrite <- Hek; exact B2).
    destruct (utf8_split s Hs k Hk) as [U1 U2].
    unfold str_slice at 1. rewrite app_length.
    assert (E : ((List.length pre <=? e) && (e <=? List.length pre + List.length s) && is_char_boundary (pre ++ s) (List.length pre) && is_char_boundary (pre ++ s) e) = true).
    { rewrite (boundary_0_mid pre s Hs), B2. unfold e0 in *. rewrite !andb_true_r. apply andb_true_iff. split; apply Nat.leb_le; lia. }
    rewrite E. cbn [assert_ bind]. rewrite skipn_app, skipn_all2, Nat.sub_diag by lia. cbn [app skipn]. fold k.
    assert (Ekl : k <= List.length s) by (unfold e0 in *; lia).
    destruct (IH (pre ++ firstn k s) (skipn k s) (out ++ [if e <? List.length pre + List.length s then firstn k s ++ dots else firstn k s]) U2) as (ps & W & C & F1 & F2 & F3).
    { rewrite skipn_length. lia. }
    rewrite <- app_assoc, firstn_skipn, app_length, firstn_length in W. replace (List.length pre + Nat.min k (List.length s)) with e in W by lia.
    rewrite W. exists (firstn k s :: ps). split; [|split; [|split; [|split]]].
    + f_equal. rewrite <- app_assoc. f_equal. destruct (Nat.ltb_spec e (List.length pre + List.length s)) as [Hlt|Hge].
      * rewrite dotted_cons; [reflexivity|]. intros ->. cbn in C. assert (List.length (skipn k s) = 0) by (rewrite <- C; reflexivity). rewrite skipn_length in H. lia.
      * assert (ps = []) as -> by (apply concat_nil_all; auto; rewrite C; apply skipn_all2; lia). reflexivity.
    + cbn. rewrite C, firstn_skipn. reflexivity.
    + constructor; auto.
    + constructor; auto. intros E1. apply (f_equal (@List.length nat)) in E1. rewrite firstn_length in E1. cbn in E1. lia.
    + constructor; auto. rewrite firstn_length. unfold e0 in *. lia.
Qed.

(** ** C44 *)

(** Wrapping never fails, loses no byte, never cuts a character, and gives lines no longer than the room left of the terminal (with the dots). *)
Theorem C44_wrap : forall eqn tw left, utf8 eqn ->
  exists pieces, wrap_equation eqn tw left = Ok (dotted pieces)
    /\ List.concat pieces = eqn /\ Forall utf8 pieces /\ Forall (fun p => p <> []) pieces
    /\ Forall (fun l => List.length l <= Nat.max (tw - 1 - left) 13) (dotted pieces).
Proof.
  intros eqn tw left Hu. unfold wrap_equation.
  destruct (wrap_loop_spec (Nat.max (tw - 1 - left - List.length dots) 10) ltac:(lia) (S (List.length eqn)) [] eqn [] Hu ltac:(lia)) as (ps & W & C & F1 & F2 & F3).
  exists ps. cbn [app List.length] in W. rewrite W. split; auto. split; auto. split; auto. split; auto.
  clear - F3. induction F3 as [|p ps Hp _ IH]; [constructor|]. destruct ps as [|p2 ps].
  - constructor; auto. change (List.length dots) with 3 in Hp. lia.
  - rewrite dotted_cons by discriminate. constructor; auto. rewrite app_length. change (List.length [46; 46; 46]) with 3. change (List.length dots) with 3 in Hp. lia.
Qed.

Lemma truncate_id s tw : char_count s <= tw - 1 -> truncate_to_width s tw = s.
Proof. intros H. unfold truncate_to_width. destruct (Nat.leb_spec (char_count s) (tw - 1)); auto; lia. Qed.
Lemma map_id_in {A} (f : A -> A) l : (forall x, In x l -> f x = x) -> map f l = l.
Proof. induction l as [|x l IH]; intros H; cbn; auto. rewrite H, IH; auto; cbn; auto. intros y Hy. apply H. right. exact Hy. Qed.

Lemma member_lines_spec tw stats eqn : utf8 eqn -> char_count stats + 14 <= tw ->
  exists pieces, member_lines tw stats eqn = Ok (laid_out stats pieces) /\ List.concat pieces = eqn /\ Forall utf8 pieces
    /\ Forall (fun l => char_count l <= tw - 1) (laid_out stats pieces).
Proof.
  intros Hu Hw. destruct (C44_wrap eqn tw (char_count stats) Hu) as (ps & W & C & F1 & _ & F3). exists ps.
  assert (Hall : Forall (fun l => char_count l <= tw - 1) (laid_out stats ps)).
  { unfold laid_out. destruct (dotted ps) as [|f rest]; [constructor; [lia|constructor]|]. inversion F3 as [|? ? Hf Hr]; subst. constructor.
    - rewrite char_count_app. pose proof (char_count_le f). lia.
    - rewrite Forall_map. eapply Forall_impl; [|exact Hr]. intros l Hl. cbv beta in *. rewrite char_count_app, char_count_blanks. pose proof (char_count_le l). lia. }
  split; [|auto]. unfold member_lines. rewrite W. cbn [bind]. f_equal. unfold laid_out in *. destruct (dotted ps) as [|f rest].
  - inversion Hall; subst. rewrite truncate_id; auto.
  - inversion Hall as [|? ? Hf Hr]; subst. rewrite truncate_id by auto. f_equal. apply map_ext_in. intros l Hl. apply truncate_id.
    rewrite Forall_map, Forall_forall in Hr. apply Hr; auto.
Qed.

(** The whole table: for every member shown, its lines spell out its whole equation next to its statistics, and no line is wider than the terminal. *)
Theorem C44_table : forall border header front tw n,
  Forall (fun '(stats, eqn) => char_count stats + 14 <= Nat.max tw 80 /\ utf8 eqn) front -> char_count header <= 79 ->
  exists rows, format_hall_of_fame border header front tw n
      = Ok (List.concat (repeat border (Nat.max tw 80 - 1)) :: header :: List.concat rows ++ [List.concat (repeat border (Nat.max tw 80 - 1))])
    /\ Forall2 (fun '(stats, eqn) lines => exists pieces, lines = laid_out stats pieces /\ List.concat pieces = eqn /\ Forall utf8 pieces) (firstn n front) rows
    /\ Forall (fun l => char_count l <= Nat.max tw 80 - 1) (List.concat rows).
Proof.
  intros border header front tw n Hf Hh. unfold format_hall_of_fame. rewrite (truncate_id header) by lia.
  assert (Hf' : Forall (fun '(stats, eqn) => char_count stats + 14 <= Nat.max tw 80 /\ utf8 eqn) (firstn n front)).
  { rewrite <- (firstn_skipn n front) in Hf. apply Forall_app in Hf. tauto. }
  set (W := Nat.max tw 80) in *. clearbody W. clear Hf. induction Hf' as [|[stats eqn] l [Hs Hu] _ IH].
  - exists []. cbn. repeat split; constructor.
  - destruct IH as (rows & E & F2 & F). destruct (member_lines_spec W stats eqn Hu Hs) as (ps & M & C & U & Wd). exists (laid_out stats ps :: rows).
    split; [|split].
    + cbn [mapM]. rewrite M. cbn [bind]. destruct (mapM _ l) as [r| |] eqn:Em; cbn [bind] in *; try discriminate. injection E as E. apply app_inj_tail in E as [E _].
      cbn [List.concat]. rewrite E. reflexivity.
    + constructor; [|auto]. exists ps. auto.
    + cbn. apply Forall_app. split; auto.
Qed.

(** ** When the statistics leave no room *)
Lemma take_conts n conts s : Forall (fun b => is_cont b = true) conts -> take_chars n (conts ++ s) = conts ++ take_chars n s.
Proof. induction 1 as [|b conts Hb _ IH]; cbn [app take_chars]; [reflexivity|]. rewrite Hb, IH. reflexivity. Qed.
Lemma count_char lead conts s : is_cont lead = false -> Forall (fun b => is_cont b = true) conts -> char_count (lead :: conts ++ s) = S (char_count s).
Proof.
  intros Hl Hc. change (lead :: conts ++ s) with ([lead] ++ (conts ++ s)). rewrite !char_count_app. assert (H1 : char_count [lead] = 1) by (unfold char_count; cbn; rewrite Hl; reflexivity).
  assert (H0 : char_count conts = 0) by (unfold char_count; induction Hc as [|b cs Hb _ IH]; cbn; [reflexivity|]; rewrite Hb; exact IH). lia.
Qed.
Lemma take_spec s : utf8 s -> forall n, exists dropped, s = take_chars n s ++ dropped /\ utf8 (take_chars n s) /\ utf8 dropped /\ char_count (take_chars n s) = Nat.min n (char_count s).
Proof.
  induction 1 as [|lead conts s Hl Hc Hn Hs IH]; intros n.
  - exists []. cbn. rewrite Nat.min_0_r. repeat split; constructor.
  - rewrite (count_char lead conts s Hl Hc). cbn [take_chars]. rewrite Hl. destruct n as [|n].
    + exists (lead :: conts ++ s). repeat split; try constructor; auto.
    + rewrite (take_conts n conts s Hc). destruct (IH n) as (dr & E & U1 & U2 & C). exists dr. split; [|split; [|split]]; auto.
      * cbn [app]. rewrite <- app_assoc, <- E. reflexivity.
      * constructor; auto.
      * rewrite (count_char lead conts _ Hl Hc), C. reflexivity.
Qed.

(** Truncating a line keeps a prefix of it, cuts no character in two, and keeps as many characters as fit. *)
Theorem C44_truncate : forall s tw, utf8 s ->
  exists dropped, s = truncate_to_width s tw ++ dropped /\ utf8 (truncate_to_width s tw) /\ utf8 dropped
    /\ char_count (truncate_to_width s tw) = Nat.min (tw - 1) (char_count s).
Proof.
  intros s tw Hs. unfold truncate_to_width. destruct (Nat.leb_spec (char_count s) (tw - 1)).
  - exists []. rewrite app_nil_r. repeat split; auto; [constructor|lia].
  - apply take_spec. exact Hs.
Qed.

Lemma utf8_app a b : utf8 a -> utf8 b -> utf8 (a ++ b).
Proof. induction 1 as [|lead conts s Hl Hc Hn Hs IH]; intros Hb; auto. cbn [app]. rewrite <- app_assoc. constructor; auto. Qed.
Lemma utf8_ascii l : Forall (fun b => is_cont b = false) l -> utf8 l.
Proof. induction 1 as [|b l Hb _ IH]; [constructor|]. apply (utf8_char b [] l); auto; cbn; lia. Qed.
Lemma utf8_dotted ps : Forall utf8 ps -> Forall utf8 (dotted ps).
Proof.
  induction 1 as [|p ps Hp Hps IH]; [constructor|]. destruct ps as [|q ps]; [constructor; auto|]. constructor; [|exact IH].
  apply utf8_app; auto. apply utf8_ascii. repeat constructor.
Qed.
Definition narrow (tw : nat) (l : list nat) : Prop := utf8 l /\ char_count l <= tw - 1.
Lemma truncate_narrow s tw : utf8 s -> narrow tw (truncate_to_width s tw).
Proof. intros Hs. destruct (C44_truncate s tw Hs) as (dr & _ & U & _ & C). split; auto. lia. Qed.
Lemma member_any tw stats eqn : utf8 stats -> utf8 eqn -> exists lines, member_lines tw stats eqn = Ok lines /\ lines <> [] /\ Forall (narrow tw) lines.
Proof.
  intros Hs Hu. destruct (C44_wrap eqn tw (char_count stats) Hu) as (ps & W & _ & F1 & _ & _). apply utf8_dotted in F1. unfold member_lines. rewrite W. cbn [bind].
  eexists. split; [reflexivity|]. destruct (dotted ps) as [|f rest]; [split; [discriminate|]; constructor; [apply truncate_narrow; auto|constructor]|].
  inversion F1 as [|? ? Hf Hr]; subst. split; [discriminate|]. constructor; [apply truncate_narrow, utf8_app; auto|]. rewrite Forall_map. eapply Forall_impl; [|exact Hr]. intros l Hl.
  apply truncate_narrow, utf8_app; auto. apply utf8_ascii. apply Forall_forall. intros b Hb. apply repeat_spec in Hb as ->. reflexivity.
Qed.

(** Whatever the width of the statistics: the table is always produced, with at least one line for every member shown; all its lines are well-formed text that fits the terminal. *)
Theorem C44_any_table : forall border header front tw n, utf8 header -> Forall (fun '(stats, eqn) => utf8 stats /\ utf8 eqn) front ->
  exists head rows, format_hall_of_fame border header front tw n
      = Ok (List.concat (repeat border (Nat.max tw 80 - 1)) :: head :: List.concat rows ++ [List.concat (repeat border (Nat.max tw 80 - 1))])
    /\ List.length rows = Nat.min n (List.length front) /\ Forall (fun lines => lines <> []) rows
    /\ Forall (fun l => utf8 l /\ char_count l <= Nat.max tw 80 - 1) (head :: List.concat rows).
Proof.
  intros border header front tw n Hh Hf. unfold format_hall_of_fame. rewrite <- firstn_length. set (W := Nat.max tw 80).
  assert (Hf' : Forall (fun '(stats, eqn) => utf8 stats /\ utf8 eqn) (firstn n front)) by (rewrite <- (firstn_skipn n front) in Hf; apply Forall_app in Hf; tauto).
  assert (M : exists rows, mapM (fun '(stats, eqn) => member_lines W stats eqn) (firstn n front) = Ok rows /\ List.length rows = List.length (firstn n front)
    /\ Forall (fun lines => lines <> []) rows /\ Forall (Forall (narrow W)) rows).
  { clear Hf. induction Hf' as [|[stats eqn] l [Hs Hu] _ (rows & E & L & N & F)]; [exists []; repeat split; constructor|].
    destruct (member_any W stats eqn Hs Hu) as (lines & Em & En & Ef). exists (lines :: rows). cbn [mapM]. rewrite Em. cbn [bind]. rewrite E. cbn [bind List.length]. repeat split; auto. }
  destruct M as (rows & E & L & N & F). rewrite E. cbn [bind]. exists (truncate_to_width header W), rows. split; [reflexivity|]. split; [exact L|]. split; [exact N|].
  constructor; [apply truncate_narrow; auto|]. rewrite Forall_forall. intros x Hx. apply in_concat in Hx as (l & Hl & Hx). rewrite Forall_forall in F. specialize (F l Hl). rewrite Forall_forall in F. exact (F x Hx).
Qed.

(** "α + x" repeated, wrapped at 10 bytes: the two-byte character is never cut. *)
Definition alpha_eqn : list nat := List.concat (repeat [206; 177; 32; 43; 32; 120; 32; 43; 32] 3).
Example C44_case : utf8 alpha_eqn
  /\ wrap_equation alpha_eqn 30 24 = Ok [[206; 177; 32; 43; 32; 120; 32; 43; 32; 46; 46; 46]; [206; 177; 32; 43; 32; 120; 32; 43; 32; 46; 46; 46]; [206; 177; 32; 43; 32; 120; 32; 43; 32]]
  /\ (let stats := repeat 49 24 in char_count stats + 14 <= Nat.max 40 80
       /\ exists lines, format_hall_of_fame [226; 148; 128] (repeat 104 32) [(stats, List.concat (repeat alpha_eqn 3))] 40 5 = Ok lines /\ List.length lines = 5).
Proof.
  split.
  - unfold alpha_eqn. cbn. assert (A : forall b s, is_cont b = false -> utf8 s -> utf8 (b :: s)) by (intros b s Hb Hs; apply (utf8_char b [] s); auto; cbn; lia).
    assert (B : forall s, utf8 s -> utf8 (206 :: 177 :: s)) by (intros s Hs; apply (utf8_char 206 [177] s); auto; cbn; lia).
    repeat first [apply utf8_nil|apply B|apply A; [reflexivity|]].
  - split; [reflexivity|]. cbv zeta. split; [vm_compute; lia|]. eexists. split; [vm_compute; reflexivity|reflexivity].
Qed.
(** Statistics of 90 characters in 80 columns: one line of 79 characters; a two-byte character is kept whole. *)
Example C44_truncate_case : format_hall_of_fame [45] [104] [(repeat 49 90, [120])] 40 5 = Ok [repeat 45 79; [104]; repeat 49 79; repeat 45 79].
Proof. vm_compute. reflexivity. Qed.
Example C44_truncate_char : truncate_to_width [206; 177; 206; 178; 120] 3 = [206; 177; 206; 178].
Proof. reflexivity. Qed.
Print Assumptions C44_truncate.
Print Assumptions C44_any_table.
Print Assumptions C44_wrap.
Print Assumptions C44_table.
