(** Lemmas about Selection.v. *)
From Coq Require Import QArith Lqa.
From Verif Require Import Base BaseLemmas Node Rng Registry Complexity Member SortProofs Num Selection.
Local Open Scope nat_scope.

(** ** Swaps and shuffles *)
(** Swapping the last position of [pre] with an earlier one moves the element at [j] to the end. *)
Lemma swap_last {A} (pre suf : list A) i j : List.length pre = S i -> j <= i ->
  exists pre0 x, nth_error pre j = Some x /\ swap (pre ++ suf) i j = Ok (pre0 ++ x :: suf)
    /\ List.length pre0 = i /\ Permutation pre (x :: pre0).
Proof.
  intros Hl Hj. destruct (exists_last (l := pre)) as (p0 & y & ->). { intros ->. discriminate. }
  rewrite app_length in Hl. cbn in Hl. assert (Hp0 : List.length p0 = i) by lia. clear Hl. rewrite <- app_assoc. cbn [app].
  assert (Hy : nth_error (p0 ++ y :: suf) i = Some y).
  { rewrite nth_error_app2 by lia. replace (i - List.length p0) with 0 by lia. reflexivity. }
  destruct (Nat.eq_dec j i) as [->|Hne].
  - exists p0, y. split; [|split; [|split; [assumption|]]].
    + rewrite nth_error_app2 by lia. replace (i - List.length p0) with 0 by lia. reflexivity.
    + unfold swap, index. rewrite Hy. cbn [bind expect]. f_equal. rewrite <- Hp0. rewrite !upd_middle. reflexivity.
    + symmetry. apply Permutation_cons_append.
  - destruct (nth_error p0 j) as [x|] eqn:Ex; [|apply nth_error_None in Ex; lia].
    apply nth_error_split in Ex as (a & b & -> & Ha). exists (a ++ y :: b), x. repeat split.
    + rewrite <- app_assoc. rewrite nth_error_app2 by lia. rewrite Ha, Nat.sub_diag. reflexivity.
    + unfold swap, index. rewrite Hy. cbn [bind expect].
      assert (Hx : nth_error ((a ++ x :: b) ++ y :: suf) j = Some x).
      { rewrite <- app_assoc. rewrite nth_error_app2 by lia. rewrite Ha, Nat.sub_diag. reflexivity. }
      rewrite Hx. cbn [bind expect]. f_equal. rewrite <- Hp0. rewrite upd_middle. rewrite <- !app_assoc. cbn [app].
      rewrite <- Ha. rewrite upd_middle. reflexivity.
    + rewrite app_length in *. cbn in *. lia.
    + rewrite <- app_assoc. cbn [app]. rewrite <- Permutation_middle. constructor. apply Permutation_app_head.
      symmetry. apply Permutation_cons_append.
Qed.

Lemma shuffle_from_spec {A W} i : forall (r : rng W) (pre suf : list A), List.length pre = S i ->
  exists pre' r', shuffle_from i r (pre ++ suf) = Ok (pre' ++ suf, r') /\ Permutation pre pre'.
Proof.
  induction i as [|i IH]; intros r pre suf Hl.
  - exists pre, r. split; auto.
  - cbn [shuffle_from]. destruct (usize_range_ok r 0 (S (S i))) as (j & r1 & E & Hj); [lia|]. rewrite E. cbn [bind expect].
    destruct (swap_last pre suf (S i) j Hl) as (p0 & x & Hx & Es & Hp & HP); [lia|]. rewrite Es. cbn [bind expect].
    destruct (IH r1 p0 (x :: suf) Hp) as (p' & r' & E' & HP'). exists (p' ++ [x]), r'. split.
    + rewrite E', <- app_assoc. reflexivity.
    + rewrite HP, HP'. apply Permutation_cons_append.
Qed.

Lemma usize_range_real {W} (r : rng W) lo hi k r' : usize_range r lo hi = Ok (k, r') -> rg_real r' = rg_real r.
Proof. unfold usize_range. destruct (lo <? hi); [|discriminate]. intros E. injection E as _ <-. reflexivity. Qed.

Lemma shuffle_from_reach {A W} (real : nat -> W) i : forall (pre pre' suf : list A), List.length pre = S i -> Permutation pre pre' ->
  exists f, forall g, exists r', shuffle_from i (mkRng (fun k => if k <? i then f k else g k) real) (pre ++ suf) = Ok (pre' ++ suf, r').
Proof.
  induction i as [|i IH]; intros pre pre' suf Hl HP.
  - destruct pre as [|x [|? ?]]; try discriminate. apply Permutation_length_1_inv in HP as ->.
    exists (fun _ => 0). intros g. eexists. reflexivity.
  - destruct (exists_last (l := pre')) as (q & x & ->). { intros ->. apply Permutation_length in HP. cbn in HP. lia. }
    assert (Hin : In x pre). { rewrite HP. apply in_or_app. right. left. reflexivity. }
    apply In_nth_error in Hin as (j & Hj). assert (Hjl : j <= S i). { pose proof (proj1 (nth_error_Some pre j)) as H. rewrite Hj in H. specialize (H ltac:(discriminate)). lia. }
    destruct (swap_last pre suf (S i) j Hl Hjl) as (p0 & x' & Hx & Es & Hp & HP'). assert (x' = x) as -> by congruence.
    assert (HPq : Permutation p0 q). { apply (Permutation_cons_inv (a := x)). rewrite <- HP'. rewrite HP. symmetry. apply Permutation_cons_append. }
    destruct (IH p0 q (x :: suf) Hp HPq) as (f & Hf). exists (fun k => match k with 0 => j | S k => f k end). intros g.
    cbn [shuffle_from]. unfold usize_range. cbn [Nat.ltb Nat.leb rg_nat rg_real]. change (0 <? S i) with true. cbn [bind expect].
    rewrite Nat.sub_0_r, Nat.mod_small by lia. cbn [Nat.add]. rewrite Es. cbn [bind expect].
    destruct (Hf (fun k => g (S k))) as (r' & E). exists r'. rewrite <- app_assoc. cbn [app]. rewrite <- E. reflexivity.
Qed.

(** Different draws give different results. *)
Lemma shuffle_from_inj {A W} i : forall (r1 r2 r1' r2' : rng W) (pre suf l : list A), List.length pre = S i -> NoDup pre ->
  shuffle_from i r1 (pre ++ suf) = Ok (l, r1') -> shuffle_from i r2 (pre ++ suf) = Ok (l, r2') ->
  forall k, k < i -> rg_nat r1 k mod (S i - k) = rg_nat r2 k mod (S i - k).
Proof.
  induction i as [|i IH]; intros r1 r2 r1' r2' pre suf l Hl Hnd E1 E2 k Hk; [lia|].
  cbn [shuffle_from] in E1, E2. unfold usize_range in E1, E2. change (0 <? S (S i)) with true in E1, E2. cbn [bind expect] in E1, E2.
  rewrite Nat.sub_0_r in E1, E2. cbn [Nat.add] in E1, E2.
  pose proof (Nat.mod_upper_bound (rg_nat r1 0) (S (S i))) as B1. pose proof (Nat.mod_upper_bound (rg_nat r2 0) (S (S i))) as B2.
  set (j1 := rg_nat r1 0 mod S (S i)) in *. set (j2 := rg_nat r2 0 mod S (S i)) in *.
  destruct (swap_last pre suf (S i) j1 Hl) as (p1 & x1 & Hx1 & Es1 & Hp1 & HP1); [lia|]. rewrite Es1 in E1. cbn [bind expect] in E1.
  destruct (swap_last pre suf (S i) j2 Hl) as (p2 & x2 & Hx2 & Es2 & Hp2 & HP2); [lia|]. rewrite Es2 in E2. cbn [bind expect] in E2.
  destruct (shuffle_from_spec i (mkRng (shift (rg_nat r1)) (rg_real r1)) p1 (x1 :: suf) Hp1) as (q1 & s1 & F1 & Q1).
  destruct (shuffle_from_spec i (mkRng (shift (rg_nat r2)) (rg_real r2)) p2 (x2 :: suf) Hp2) as (q2 & s2 & F2 & Q2).
  pose proof E1 as G1. pose proof E2 as G2. rewrite F1 in E1. rewrite F2 in E2. injection E1 as <- _. injection E2 as El _.
  assert (Hlen : List.length q1 = List.length q2). { rewrite <- (Permutation_length Q1), <- (Permutation_length Q2). lia. }
  assert (Hx : x1 = x2 /\ q1 = q2).
  { clear - El Hlen. revert q2 El Hlen. induction q1 as [|a q1 IH]; intros [|b q2] El Hlen; try discriminate.
    - injection El as ->. auto.
    - injection El as -> El. injection Hlen as Hlen. destruct (IH q2 El Hlen) as [-> ->]. auto. }
  destruct Hx as [<- <-].
  assert (Hj : j1 = j2). { apply (proj1 (NoDup_nth_error pre) Hnd); [lia|congruence]. }
  assert (Hpp : p1 = p2). { rewrite Hj in Es1. rewrite Es1 in Es2. injection Es2 as H. apply app_inv_tail in H. exact H. }
  destruct k as [|k].
  - rewrite Nat.sub_0_r. exact Hj.
  - subst p2. rewrite Nat.sub_succ.
    refine (IH _ _ _ _ p1 (x1 :: suf) _ Hp1 _ F1 F2 k _); [|lia].
    rewrite HP1 in Hnd. apply NoDup_cons_iff in Hnd. tauto.
Qed.

(** ** Sampling indices *)
Lemma swap_first {A} (pre rest : list A) j : j < List.length rest ->
  exists x rest', nth_error rest j = Some x /\ swap (pre ++ rest) (List.length pre) (List.length pre + j) = Ok (pre ++ x :: rest')
    /\ Permutation rest (x :: rest').
Proof.
  intros Hj. destruct rest as [|y rest]; [cbn in Hj; lia|]. destruct j as [|j].
  - exists y, rest. repeat split; auto. rewrite Nat.add_0_r. unfold swap, index.
    rewrite nth_error_app2, Nat.sub_diag by lia. cbn [nth_error bind expect]. rewrite !upd_middle. reflexivity.
  - destruct (nth_error rest j) as [x|] eqn:Ex; [|apply nth_error_None in Ex; cbn in Hj; lia].
    apply nth_error_split in Ex as (a & b & -> & Ha). exists x, (a ++ y :: b). repeat split.
    + cbn [nth_error]. rewrite nth_error_app2 by lia. rewrite Ha, Nat.sub_diag. reflexivity.
    + unfold swap, index. rewrite nth_error_app2, Nat.sub_diag by lia. cbn [nth_error bind expect].
      rewrite nth_error_app2 by lia. replace (List.length pre + S j - List.length pre) with (S j) by lia. cbn [nth_error].
      rewrite nth_error_app2 by lia. rewrite Ha, Nat.sub_diag. cbn [nth_error bind expect]. f_equal. rewrite upd_middle.
      change (pre ++ x :: a ++ x :: b) with (pre ++ ([x] ++ a) ++ x :: b).
      rewrite app_assoc. replace (List.length pre + S j) with (List.length (pre ++ [x] ++ a)) by (rewrite app_length; cbn; lia).
      rewrite upd_middle. rewrite <- app_assoc. reflexivity.
    + rewrite <- Permutation_middle, perm_swap. constructor. rewrite <- Permutation_middle. reflexivity.
Qed.

Lemma partial_shuffle_spec {W} k : forall (r : rng W) (pre rest : list nat), k <= List.length rest ->
  exists v r', partial_shuffle (seq (List.length pre) k) (List.length pre + List.length rest) r (pre ++ rest) = Ok (v, r') /\ Permutation (pre ++ rest) v.
Proof.
  induction k as [|k IH]; intros r pre rest Hk.
  - exists (pre ++ rest), r. split; auto.
  - cbn [seq partial_shuffle]. destruct (usize_range_ok r (List.length pre) (List.length pre + List.length rest)) as (j & r1 & E & Hj); [lia|].
    rewrite E. cbn [bind expect]. destruct (swap_first pre rest (j - List.length pre)) as (x & rest' & _ & Es & HP); [lia|].
    replace (List.length pre + (j - List.length pre)) with j in Es by lia. rewrite Es. cbn [bind expect].
    pose proof (Permutation_length HP) as HL. cbn in HL.
    destruct (IH r1 (pre ++ [x]) rest') as (v & r' & E' & HP'); [lia|]. rewrite app_length in E'. cbn [List.length] in E'.
    replace (List.length pre + 1) with (S (List.length pre)) in E' by lia.
    replace (List.length pre + List.length rest) with (S (List.length pre) + List.length rest') by lia.
    rewrite <- app_assoc in E', HP'. cbn [app] in E', HP'. exists v, r'. split; [exact E'|]. rewrite <- HP'. apply Permutation_app_head. exact HP.
Qed.

Lemma partial_shuffle_reach {W} (real : nat -> W) : forall (s pre rest : list nat), NoDup s -> incl s rest -> NoDup rest ->
  exists f r' tl, partial_shuffle (seq (List.length pre) (List.length s)) (List.length pre + List.length rest) (mkRng f real) (pre ++ rest)
                = Ok (pre ++ s ++ tl, r').
Proof.
  induction s as [|x s IH]; intros pre rest Hs Hi Hr.
  - exists (fun _ => 0), (mkRng (fun _ => 0) real), rest. reflexivity.
  - apply NoDup_cons_iff in Hs as [Hx Hs].
    assert (Hin : In x rest) by (apply Hi; left; reflexivity). apply In_nth_error in Hin as (j & Hj).
    assert (Hjl : j < List.length rest). { apply nth_error_Some. congruence. }
    destruct (swap_first pre rest j Hjl) as (x' & rest' & Hx' & Es & HP). assert (x' = x) as -> by congruence.
    pose proof (Permutation_length HP) as HL. cbn in HL.
    assert (Hr' : NoDup (x :: rest')) by (rewrite <- HP; exact Hr). apply NoDup_cons_iff in Hr' as [Hxr Hr'].
    destruct (IH (pre ++ [x]) rest' Hs) as (f & r' & tl & E'); auto.
    { intros y Hy. assert (Hyr : In y rest) by (apply Hi; right; exact Hy). rewrite HP in Hyr. destruct Hyr as [->|Hyr]; auto. contradiction. }
    rewrite app_length in E'. cbn [List.length] in E'. replace (List.length pre + 1) with (S (List.length pre)) in E' by lia.
    exists (fun k => match k with 0 => j | S k => f k end), r', tl.
    cbn [List.length seq partial_shuffle]. unfold usize_range. destruct (Nat.ltb_spec (List.length pre) (List.length pre + List.length rest)); [|lia].
    cbn [rg_nat rg_real bind expect]. replace (List.length pre + List.length rest - List.length pre) with (List.length rest) by lia.
    rewrite Nat.mod_small by lia. rewrite Es. cbn [bind expect].
    replace (List.length pre + List.length rest) with (S (List.length pre) + List.length rest') by lia.
    rewrite <- !app_assoc in E'. cbn [app] in E'. exact E'.
Qed.

Lemma existsb_eqb_in x l : existsb (Nat.eqb x) l = true <-> In x l.
Proof.
  rewrite existsb_exists. split.
  - intros (y & Hy & E). apply Nat.eqb_eq in E. subst. exact Hy.
  - intros H. exists x. split; auto. apply Nat.eqb_refl.
Qed.

Definition distinct_below (len : nat) (l : list nat) : Prop := NoDup l /\ Forall (fun i => i < len) l.

Lemma distinct_below_snoc len l x : distinct_below len l -> x < len -> ~ In x l -> distinct_below len (l ++ [x]).
Proof.
  intros [H1 H2] Hx Hn. split.
  - apply NoDup_rev in H1. rewrite <- (rev_involutive (l ++ [x])). apply NoDup_rev. rewrite rev_app_distr. cbn. constructor; auto.
    rewrite <- in_rev. exact Hn.
  - apply Forall_app. auto.
Qed.

Lemma reject_loop_spec {W} len take fuel : forall (r : rng W) out, distinct_below len out -> List.length out <= take -> 0 < len ->
  reject_loop fuel len take r out <> Panic /\
  forall v r', reject_loop fuel len take r out = Ok (v, r') -> distinct_below len v /\ List.length v = take.
Proof.
  induction fuel as [|fuel IH]; intros r out Hd Hl Hpos; cbn [reject_loop].
  - destruct (Nat.ltb_spec (List.length out) take); split; try discriminate. intros v r' E. injection E as <- _. split; auto. lia.
  - destruct (Nat.ltb_spec (List.length out) take).
    + destruct (usize_range_ok r 0 len) as (j & r1 & E & Hj); [lia|]. rewrite E. cbn [bind expect].
      destruct (existsb (Nat.eqb j) out) eqn:Ex.
      * apply IH; auto.
      * apply IH; auto.
        -- apply distinct_below_snoc; auto; [lia|]. intros Hin. apply existsb_eqb_in in Hin. congruence.
        -- rewrite app_length. cbn. lia.
    + split; [discriminate|]. intros v r' E. injection E as <- _. split; auto. lia.
Qed.

Lemma reject_loop_terminates {W} len take fuel : forall (r : rng W) out s, 0 < len -> distinct_below len out -> List.length out <= take ->
  NoDup s -> take - List.length out <= List.length s ->
  (forall x, In x s -> ~ In x out /\ exists k, k < fuel /\ rg_nat r k mod len = x) ->
  exists v r', reject_loop fuel len take r out = Ok (v, r').
Proof.
  induction fuel as [|fuel IH]; intros r out s Hpos Hd Hl Hs Hlen Hin; cbn [reject_loop].
  - destruct (Nat.ltb_spec (List.length out) take); [|eauto]. destruct s as [|x s]; [cbn in Hlen; lia|].
    destruct (Hin x) as (_ & k & Hk & _); [left; reflexivity|lia].
  - destruct (Nat.ltb_spec (List.length out) take); [|eauto]. unfold usize_range. destruct (Nat.ltb_spec 0 len); [|lia].
    cbn [bind expect]. rewrite Nat.sub_0_r. cbn [Nat.add]. set (j := rg_nat r 0 mod len).
    pose proof (Nat.mod_upper_bound (rg_nat r 0) len ltac:(lia)) as Hj. fold j in Hj.
    destruct (existsb (Nat.eqb j) out) eqn:Ex.
    + apply (IH _ out s); auto. intros x Hx. destruct (Hin x Hx) as (Hn & k & Hk & Ek). split; auto.
      apply existsb_eqb_in in Ex. destruct k as [|k].
      * fold j in Ek. subst x. contradiction.
      * exists k. split; [lia|]. exact Ek.
    + assert (Hnj : ~ In j out). { intros Hc. apply existsb_eqb_in in Hc. congruence. }
      apply (IH _ (out ++ [j]) (List.remove Nat.eq_dec j s)); auto.
      * apply distinct_below_snoc; auto.
      * rewrite app_length. cbn. lia.
      * clear - Hs. induction Hs as [|a l Hn Hs IH]; cbn; [constructor|]. destruct (Nat.eq_dec j a); auto. constructor; auto.
        intros Hc. apply in_remove in Hc. tauto.
      * rewrite app_length. cbn [List.length]. assert (HR : List.length s <= S (List.length (List.remove Nat.eq_dec j s))).
        { clear - Hs. induction Hs as [|a l Hn Hs IH]; cbn; [lia|]. destruct (Nat.eq_dec j a) as [->|Hne]; cbn; [|lia].
          rewrite notin_remove by auto. lia. }
        lia.
      * intros x Hx. apply in_remove in Hx as [Hx Hne]. destruct (Hin x Hx) as (Hn & k & Hk & Ek). split.
        -- rewrite in_app_iff. cbn. intuition.
        -- destruct k as [|k]; [fold j in Ek; congruence|]. exists k. split; [lia|]. exact Ek.
Qed.

Lemma reject_loop_reach {W} (real : nat -> W) len : forall s out fuel, 0 < len -> distinct_below len (out ++ s) -> List.length s <= fuel ->
  exists f r', reject_loop fuel len (List.length out + List.length s) (mkRng f real) out = Ok (out ++ s, r').
Proof.
  induction s as [|x s IH]; intros out fuel Hpos Hd Hf.
  - exists (fun _ => 0), (mkRng (fun _ => 0) real). rewrite app_nil_r. destruct fuel; cbn [reject_loop List.length]; rewrite Nat.add_0_r, Nat.ltb_irrefl; reflexivity.
  - destruct fuel as [|fuel]; [cbn in Hf; lia|].
    assert (Hd' : distinct_below len ((out ++ [x]) ++ s)) by (rewrite <- app_assoc; exact Hd).
    destruct (IH (out ++ [x]) fuel Hpos Hd') as (f & r' & E); [cbn in Hf; lia|].
    exists (fun k => match k with 0 => x | S k => f k end), r'. cbn [reject_loop].
    destruct (Nat.ltb_spec (List.length out) (List.length out + List.length (x :: s))); [|cbn in *; lia].
    unfold usize_range. destruct (Nat.ltb_spec 0 len); [|lia]. cbn [rg_nat rg_real bind expect]. rewrite Nat.sub_0_r. cbn [Nat.add].
    destruct Hd as [Hnd Hlt]. rewrite Forall_forall in Hlt. rewrite Nat.mod_small by (apply Hlt; apply in_or_app; right; left; reflexivity).
    destruct (existsb (Nat.eqb x) out) eqn:Ex.
    { exfalso. apply existsb_eqb_in in Ex. apply NoDup_remove_2 in Hnd. apply Hnd. apply in_or_app. auto. }
    rewrite app_length in E. cbn [List.length] in *. replace (List.length out + S (List.length s)) with (List.length out + 1 + List.length s) by lia.
    rewrite <- app_assoc in E. cbn [app] in E. exact E.
Qed.
