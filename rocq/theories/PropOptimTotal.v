(** Property C33, continued: on an objective that does not panic the minimisers do not panic either, in any arithmetic, and
    what they report as the minimum is the objective at the point they return. *)
From Coq Require Import QArith.
From Verif Require Import Base BaseLemmas Node Compile Eval EvalProofs Num Instances Dataset Optim PropOptim.
Local Open Scope nat_scope.

(** On states satisfying [Inv] and points with [n] coordinates, the objective returns normally, keeps [Inv], the value it gives with the gradient
    is a value [Val] at the point, and its gradient has [n] coordinates. *)
Record total_objective {St W} (Inv : St -> Prop) (n : nat) (obj : objective St W) (Val : list W -> W -> Prop) : Prop := {
  to_f : forall st x, Inv st -> List.length x = n -> exists st' v, ob_f obj st x = Ok (st', v) /\ Inv st';
  to_fg : forall st x, Inv st -> List.length x = n -> exists st' v, ob_fg obj st x = Ok (st', v) /\ Inv st'
     /\ forall a g, v = Some (a, g) -> Val x a /\ List.length g = n }.

Section Vec.
Context {W : Type} (F : FloatOps W) (OO : OptOps W).

Lemma zip_eq_ok {A B} (a : list A) (b : list B) : List.length a = List.length b -> zip_eq a b = Ok (combine a b).
Proof. intros H. unfold zip_eq. rewrite H, Nat.eqb_refl. reflexivity. Qed.

Lemma axpy_ok x a s : List.length s = List.length x -> exists xn, axpy F x a s = Ok xn /\ List.length xn = List.length x.
Proof.
  intros H. unfold axpy. rewrite zip_eq_ok by auto. cbn [bind]. eexists. split; [reflexivity|].
  rewrite map_length, combine_length. lia.
Qed.
Lemma sub_ok x s : List.length s = List.length x -> exists xn, sub_vec F x s = Ok xn /\ List.length xn = List.length x.
Proof.
  intros H. unfold sub_vec. rewrite zip_eq_ok by auto. cbn [bind]. eexists. split; [reflexivity|].
  rewrite map_length, combine_length. lia.
Qed.
Lemma dot_ok x s : List.length s = List.length x -> exists v, dot F x s = Ok v.
Proof. intros H. unfold dot. rewrite zip_eq_ok by auto. cbn [bind]. eauto. Qed.

Lemma mapM_ok {A B} (g : A -> res B) l : (forall x, In x l -> exists y, g x = Ok y) -> exists ys, mapM g l = Ok ys /\ List.length ys = List.length l.
Proof.
  induction l as [|x l IH]; intros H; cbn [mapM]; [eauto|].
  destruct (H x) as [y ->]; [left; auto|]. cbn [bind]. destruct IH as (ys & -> & Hl); [intros; apply H; right; auto|]. cbn [bind].
  eexists. split; [reflexivity|]. cbn. lia.
Qed.

Lemma matvec_ok n h x : List.length h = n * n -> List.length x = n -> exists y, matvec F h x = Ok y /\ List.length y = n.
Proof.
  intros Hh Hx. unfold matvec. rewrite Hx.
  destruct (mapM_ok (fun i => let! row := slice h (i * n) n in dot F row x) (seq 0 n)) as (ys & E & Hl).
  - intros i Hi. apply in_seq in Hi. unfold slice.
    assert (i * n + n <= n * n) by nia. destruct (Nat.leb_spec (i * n + n) (List.length h)); [|lia]. cbn [bind].
    apply dot_ok. rewrite firstn_length, skipn_length. lia.
  - rewrite seq_length in Hl. eauto.
Qed.

Lemma grid_length n : List.length (flat_map (fun i : nat => map (fun j : nat => (i, j)) (seq 0 n)) (seq 0 n)) = n * n.
Proof.
  assert (H : forall l, List.length (flat_map (fun i : nat => map (fun j : nat => (i, j)) (seq 0 n)) l) = List.length l * n).
  { induction l as [|a l IH]; auto. cbn [flat_map]. rewrite app_length, IH, map_length, seq_length. cbn. lia. }
  rewrite H, seq_length. reflexivity.
Qed.
Lemma identity_length n : List.length (identity F n) = n * n.
Proof.
  unfold identity.
  assert (H : forall l, List.length (flat_map (fun i => map (fun j => if i =? j then fone F else fzero F) (seq 0 n)) l) = List.length l * n).
  { induction l as [|a l IH]; auto. cbn [flat_map]. rewrite app_length, IH, map_length, seq_length. cbn. lia. }
  rewrite H, seq_length. reflexivity.
Qed.
Lemma grid_in n p : In p (flat_map (fun i => map (fun j => (i, j)) (seq 0 n)) (seq 0 n)) -> fst p < n /\ snd p < n.
Proof.
  intros H. apply in_flat_map in H as (i & Hi & H). apply in_map_iff in H as (j & <- & Hj). apply in_seq in Hi, Hj. cbn. lia.
Qed.
Lemma index_lt {A} (l : list A) i : i < List.length l -> exists v, index l i = Ok v.
Proof. intros H. unfold index. destruct (nth_error l i) eqn:E; [cbn; eauto|]. apply nth_error_None in E. lia. Qed.

Lemma bfgs_update_ok n h dx u c1 c2 : List.length h = n * n -> List.length dx = n -> List.length u = n ->
  exists h', bfgs_update F OO n h dx u c1 c2 = Ok h' /\ List.length h' = n * n.
Proof.
  intros Hh Hd Hu. unfold bfgs_update.
  match goal with |- context [mapM ?g ?l] => destruct (mapM_ok g l) as (h1 & -> & Hl1) end.
  { intros [i j] Hp. apply grid_in in Hp as [Hi Hj]. cbn [fst snd] in *.
    destruct (index_lt h (i * n + j)) as [? ->]; [nia|]. destruct (index_lt dx i) as [? ->]; [lia|]. destruct (index_lt dx j) as [? ->]; [lia|].
    destruct (index_lt u i) as [? ->]; [lia|]. destruct (index_lt u j) as [? ->]; [lia|]. cbn [bind]. eauto. }
  rewrite grid_length in Hl1. cbn [bind].
  match goal with |- context [mapM ?g ?l] => destruct (mapM_ok g l) as (h2 & -> & Hl2) end.
  { intros [i j] Hp. apply grid_in in Hp as [Hi Hj]. cbn [fst snd] in *.
    destruct (i =? j); [apply index_lt; nia|].
    destruct (index_lt h1 (Nat.min i j * n + Nat.max i j)) as [? ->]; [nia|].
    destruct (index_lt h1 (Nat.max i j * n + Nat.min i j)) as [? ->]; [nia|]. cbn [bind]. eauto. }
  rewrite grid_length in Hl2. eauto.
Qed.
End Vec.

Section Total.
Context {St W : Type} (F : FloatOps W) (OO : OptOps W) (obj : objective St W) (Inv : St -> Prop) (n : nat) (Val : list W -> W -> Prop)
  (R : total_objective Inv n obj Val) (opts : optim_options W) (ls : backtracking W).
Let limit := oi_f_calls_limit opts.

Lemma budgeted_ok st x : Inv (fst st) -> List.length x = n ->
  exists st' v, budgeted F obj limit st x = Ok (st', v) /\ Inv (fst st').
Proof.
  destruct st as [s c]. cbn [fst]. intros HI Hx. unfold budgeted. destruct (negb (limit =? 0) && (limit <=? c)).
  - do 2 eexists. split; [reflexivity|auto].
  - destruct (to_f _ _ _ _ R s x HI Hx) as (s' & v & -> & HI'). cbn [bind]. do 2 eexists. split; [reflexivity|auto].
Qed.

Lemma halve_ok x s : List.length x = n -> List.length s = n -> forall k st a last x0, Inv (fst st) ->
  exists st' a' o xn, halve F OO (budgeted F obj limit) x s k st a last x0 = Ok (st', a', o, xn) /\ Inv (fst st')
    /\ (List.length xn = n \/ (xn = x0 /\ o = last)).
Proof.
  intros Hx Hs. induction k as [|k IH]; intros st a last x0 HI; cbn [halve].
  - do 4 eexists. split; [reflexivity|auto].
  - destruct (axpy_ok F x a s) as (xn & -> & Hl); [lia|]. cbn [bind].
    destruct (budgeted_ok st xn HI ltac:(lia)) as (st1 & v & -> & HI1). cbn [bind].
    destruct (match v with Some v => ffinite F v | None => false end).
    + do 4 eexists. split; [reflexivity|]. split; auto. left. lia.
    + cbv zeta. destruct (fleb F (fmul F a (oo_half OO)) (fzero F)).
      * do 4 eexists. split; [reflexivity|]. split; auto. left. lia.
      * destruct (IH st1 (fmul F a (oo_half OO)) v xn HI1) as (st' & a' & o & xn' & E & HI' & Hc). do 4 eexists. split; [exact E|]. split; auto.
        left. destruct Hc as [Hc|[-> _]]; lia.
Qed.

Lemma armijo_ok x s phi0 dphi0 : List.length x = n -> List.length s = n -> forall k first st alpha phi aprev pprev xn,
  Inv (fst st) -> List.length xn = n ->
  exists st' r, armijo_loop F OO (budgeted F obj limit) ls x s phi0 dphi0 k first st alpha phi aprev pprev xn = Ok (st', r)
    /\ Inv (fst st') /\ forall a p xn', r = Some (a, p, xn') -> List.length xn' = n.
Proof.
  intros Hx Hs. induction k as [|k IH]; intros first st alpha phi aprev pprev xn HI Hn; cbn [armijo_loop].
  - do 2 eexists. split; [reflexivity|]. split; [auto|discriminate].
  - destruct (fleb F phi _).
    + do 2 eexists. split; [reflexivity|]. split; auto. intros a p xn' [= _ _ <-]. auto.
    + cbv zeta. match goal with |- context [if ?c then Ok (st, None) else _] => destruct c end.
      * do 2 eexists. split; [reflexivity|]. split; [auto|discriminate].
      * match goal with |- context [axpy F x ?a s] => destruct (axpy_ok F x a s) as (xn1 & -> & Hl); [lia|] end. cbn [bind].
        destruct (budgeted_ok st xn1 HI ltac:(lia)) as (st1 & v & -> & HI1). cbn [bind].
        destruct v as [w|]; [|do 2 eexists; split; [reflexivity|]; split; [auto|discriminate]].
        destruct (negb (ffinite F w)); [do 2 eexists; split; [reflexivity|]; split; [auto|discriminate]|].
        apply IH; auto. lia.
Qed.

Lemma linesearch_ok x s alpha0 phi0 dphi0 st : List.length x = n -> List.length s = n -> Inv (fst st) ->
  exists st' r, linesearch F OO (budgeted F obj limit) ls x s alpha0 phi0 dphi0 st = Ok (st', r)
    /\ Inv (fst st') /\ forall a p xn', r = Some (a, p, xn') -> List.length xn' = n.
Proof.
  intros Hx Hs HI. unfold linesearch.
  destruct (negb (ffinite F alpha0) || fleb F alpha0 (fzero F)); [do 2 eexists; split; [reflexivity|]; split; [auto|discriminate]|].
  cbv zeta. match goal with |- context [halve F OO _ x s ?k st ?a None []] => destruct (halve_ok x s Hx Hs k st a None [] HI) as (st1 & a1 & o & xn & -> & HI1 & Hc) end.
  cbn [bind]. destruct o as [p|]; [|do 2 eexists; split; [reflexivity|]; split; [auto|discriminate]].
  destruct (negb (ffinite F p)); [do 2 eexists; split; [reflexivity|]; split; [auto|discriminate]|].
  apply armijo_ok; auto. destruct Hc as [?|[_ ?]]; [auto|discriminate].
Qed.

Lemma bfgs_loop_ok : forall k st x g h fx, Inv (fst st) -> List.length x = n -> List.length g = n -> List.length h = n * n -> Val x fx ->
  exists st' r, bfgs_loop F OO obj opts ls n k st x g h fx = Ok (st', r) /\ Inv (fst st')
    /\ forall o, r = Some o -> List.length (or_minimizer o) = n /\ Val (or_minimizer o) (or_minimum o).
Proof.
  induction k as [|k IH]; intros st x g h fx HI Hx Hg Hh Hf; cbn [bfgs_loop]; cbv zeta.
  - do 2 eexists. split; [reflexivity|]. split; auto. intros o [= <-]. auto.
  - assert (Hdone : exists st' r, Ok (st, Some (mkResult x fx (snd st))) = Ok (st', r) /\ Inv (fst st')
      /\ forall o, r = Some o -> List.length (or_minimizer o) = n /\ Val (or_minimizer o) (or_minimum o)).
    { do 2 eexists. split; [reflexivity|]. split; auto. intros o [= <-]. auto. }
    assert (Hnone : forall st0 : St * nat, Inv (fst st0) -> exists st' r, Ok (st0, @None (optim_result W)) = Ok (st', r) /\ Inv (fst st')
      /\ forall o, r = Some o -> List.length (or_minimizer o) = n /\ Val (or_minimizer o) (or_minimum o)).
    { intros st0 H0. do 2 eexists. split; [reflexivity|]. split; [auto|discriminate]. }
    destruct (negb (oi_f_calls_limit opts =? 0) && (oi_f_calls_limit opts <=? snd st)); [exact Hdone|].
    destruct (negb (ffinite F (inf_norm F OO g)) || fleb F (inf_norm F OO g) (oi_g_abstol opts)); [exact Hdone|].
    destruct (matvec_ok F n h g Hh Hg) as (hg & -> & Hhg). cbn [bind].
    assert (Hs : List.length (map (fneg F) hg) = n) by (rewrite map_length; auto).
    destruct (dot_ok F g (map (fneg F) hg)) as [d ->]; [lia|]. cbn [bind].
    assert (Hdir : exists h1 s dphi0,
      (if negb (ffinite F d) || fgeb F d (fzero F) then let s := map (fneg F) g in let! d := dot F g s in Ok (identity F n, s, d)
       else Ok (h, map (fneg F) hg, d)) = Ok (h1, s, dphi0) /\ List.length h1 = n * n /\ List.length s = n).
    { destruct (negb (ffinite F d) || fgeb F d (fzero F)); cbv zeta.
      - destruct (dot_ok F g (map (fneg F) g)) as [d1 ->]; [rewrite map_length; auto|]. cbn [bind]. do 3 eexists. split; [reflexivity|].
        rewrite identity_length, map_length. auto.
      - do 3 eexists. split; [reflexivity|auto]. }
    cbv zeta in Hdir. destruct Hdir as (h1 & s & dphi0 & -> & Hh1 & Hs1). cbn [bind].
    destruct (negb (ffinite F dphi0) || fgeb F dphi0 (fzero F)); [exact Hdone|].
    fold limit. destruct (linesearch_ok x s (fone F) fx dphi0 st Hx Hs1 HI) as (st1 & lr & -> & HI1 & Hlr). cbn [bind].
    destruct lr as [[[alpha phi] xn]|]; [|apply Hnone; auto]. pose proof (Hlr _ _ _ eq_refl) as Hxn.
    destruct (to_fg _ _ _ _ R (fst st1) xn HI1 Hxn) as (s1 & v & -> & HI2 & Hv). cbn [bind].
    destruct v as [[fn gn]|]; [|apply Hnone; auto]. destruct (Hv _ _ eq_refl) as [Hfn Hgn].
    destruct (negb (ffinite F fn)).
    { do 2 eexists. split; [reflexivity|]. split; auto. intros o [= <-]. auto. }
    destruct (sub_ok F xn x) as (dx & -> & Hdx); [lia|]. cbn [bind]. destruct (sub_ok F gn g) as (dg & -> & Hdg); [lia|]. cbn [bind].
    destruct (dot_ok F dx dg) as [dd ->]; [lia|]. cbn [bind].
    destruct (negb (ffinite F dd && fgtb F dd (oo_tiny OO))); [apply IH; auto; apply identity_length|].
    destruct (fgtb F dd (fzero F)); [|apply IH; auto].
    destruct (matvec_ok F n h1 dg Hh1) as (u & -> & Hu); [lia|]. cbn [bind]. destruct (dot_ok F dg u) as [du ->]; [lia|]. cbn [bind].
    destruct (ffinite F du); [|apply IH; auto].
    match goal with |- context [bfgs_update F OO n h1 dx u ?c1 ?c2] => destruct (bfgs_update_ok F OO n h1 dx u c1 c2) as (h2 & -> & Hh2); auto; [lia|] end.
    cbn [bind]. apply IH; auto.
Qed.

Lemma newton_loop_ok (n1 : n = 1) : forall k st x bx bf, Inv (fst st) -> (bf = finf F \/ Val [bx] bf) ->
  exists st' r, newton_loop F OO obj opts ls k st x bx bf = Ok (st', r) /\ Inv (fst st')
    /\ forall o, r = Some o -> exists x', or_minimizer o = [x'] /\ (or_minimum o = finf F \/ Val [x'] (or_minimum o)).
Proof.
  induction k as [|k IH]; intros st x bx bf HI Hb; cbn [newton_loop]; cbv zeta.
  - do 2 eexists. split; [reflexivity|]. split; auto. intros o [= <-]. cbn. eauto.
  - assert (Hnone : forall st0 : St * nat, Inv (fst st0) -> exists st' r, Ok (st0, @None (optim_result W)) = Ok (st', r) /\ Inv (fst st')
      /\ forall o, r = Some o -> exists x', or_minimizer o = [x'] /\ (or_minimum o = finf F \/ Val [x'] (or_minimum o))).
    { intros st0 H0. do 2 eexists. split; [reflexivity|]. split; [auto|discriminate]. }
    assert (Hdone : forall (st0 : St * nat) bx bf, Inv (fst st0) -> (bf = finf F \/ Val [bx] bf) ->
      exists st' r, Ok (st0, Some (mkResult [bx] bf (snd st0))) = Ok (st', r) /\ Inv (fst st')
      /\ forall o, r = Some o -> exists x', or_minimizer o = [x'] /\ (or_minimum o = finf F \/ Val [x'] (or_minimum o))).
    { intros st0 bx0 bf0 H0 Hb0. do 2 eexists. split; [reflexivity|]. split; auto. intros o [= <-]. cbn. eauto. }
    destruct (negb (oi_f_calls_limit opts =? 0) && (oi_f_calls_limit opts <=? snd st)); [apply Hdone; auto|].
    destruct (to_fg _ _ _ _ R (fst st) [x] HI) as (s1 & v & -> & HI1 & Hv); [auto|]. cbn [bind].
    destruct v as [[fv gv]|]; [|apply Hnone; auto]. destruct (Hv _ _ eq_refl) as [Hfv Hgv].
    destruct (index_lt gv 0) as [g ->]; [lia|]. cbn [bind].
    destruct (negb (ffinite F fv) || negb (ffinite F g)); [apply Hnone; auto|].
    assert (Hb1 : (if fltb F fv bf then fv else bf) = finf F \/ Val [if fltb F fv bf then x else bx] (if fltb F fv bf then fv else bf)).
    { destruct (fltb F fv bf); auto. }
    destruct (fleb F (oo_abs OO g) (oi_g_abstol opts)); [apply (Hdone (s1, S (snd st))); auto|].
    cbn [fst snd].
    match goal with |- context [ob_fg obj s1 ?p] => destruct (to_fg _ _ _ _ R s1 p HI1) as (s2 & v2 & -> & HI2 & Hv2); [auto|] end. cbn [bind].
    destruct v2 as [[fp gp]|]; [|apply Hnone; auto]. destruct (Hv2 _ _ eq_refl) as [_ Hgp]. destruct (index_lt gp 0) as [gplus ->]; [lia|]. cbn [bind fst snd].
    match goal with |- context [ob_fg obj s2 ?p] => destruct (to_fg _ _ _ _ R s2 p HI2) as (s3 & v3 & -> & HI3 & Hv3); [auto|] end. cbn [bind].
    destruct v3 as [[fm gm]|]; [|apply Hnone; auto]. destruct (Hv3 _ _ eq_refl) as [_ Hgm]. destruct (index_lt gm 0) as [gminus ->]; [lia|]. cbn [bind fst snd].
    match goal with |- context [let '(_, _) := ?c in _] => destruct c as [s dphi0] end.
    destruct (negb (ffinite F dphi0) || fgeb F dphi0 (fzero F)); [apply (Hdone (s3, S (S (S (snd st))))); auto|].
    fold limit. destruct (linesearch_ok [x] [s] (fone F) fv dphi0 (s3, S (S (S (snd st))))) as (st1 & lr & -> & HI4 & Hlr); auto. cbn [bind].
    destruct lr as [[[alpha phi] xn]|]; [|apply Hnone; auto]. apply IH; auto.
Qed.
End Total.

(** Whatever the arithmetic, the start and the objective: BFGS returns normally, and a result it returns is a point of the
    right dimension together with a value of the objective there. *)
Theorem C33_bfgs_total : forall (St W : Type) (F : FloatOps W) (OO : OptOps W) (obj : objective St W) Inv Val opts ls st x0,
  total_objective Inv (List.length x0) obj Val -> Inv st ->
  exists st' calls r, bfgs_minimize F OO obj opts ls st x0 = Ok (st', calls, r) /\ Inv st'
    /\ forall o, r = Some o -> List.length (or_minimizer o) = List.length x0 /\ Val (or_minimizer o) (or_minimum o).
Proof.
  intros St W F OO obj Inv Val opts ls st x0 R HI. unfold bfgs_minimize.
  destruct (to_fg _ _ _ _ R st x0 HI eq_refl) as (s & v & -> & HI1 & Hv). cbn [bind].
  destruct v as [[fx g]|]; [|do 3 eexists; split; [reflexivity|]; split; [auto|discriminate]]. destruct (Hv _ _ eq_refl) as [Hfx Hg].
  destruct (negb (ffinite F fx)); [do 3 eexists; split; [reflexivity|]; split; [auto|discriminate]|].
  destruct (bfgs_loop_ok F OO obj Inv _ Val R opts ls (oi_iterations opts) (s, 1) x0 g (identity F (List.length x0)) fx) as ([s' c] & r & E & H1 & H2); auto.
  { apply identity_length. }
  exists s', c, r. auto.
Qed.

(** Newton likewise; the minimum may also be infinity, if the budget or the number of iterations is zero. *)
Theorem C33_newton_total : forall (St W : Type) (F : FloatOps W) (OO : OptOps W) (obj : objective St W) Inv Val opts ls st x0,
  total_objective Inv 1 obj Val -> Inv st ->
  exists st' calls r, newton_1d_minimize F OO obj opts ls st x0 = Ok (st', calls, r) /\ Inv st'
    /\ forall o, r = Some o -> exists x, or_minimizer o = [x] /\ (or_minimum o = finf F \/ Val [x] (or_minimum o)).
Proof.
  intros St W F OO obj Inv Val opts ls st x0 R HI. unfold newton_1d_minimize.
  destruct (newton_loop_ok F OO obj Inv 1 Val R opts ls eq_refl (oi_iterations opts) (st, 0) x0 x0 (finf F)) as ([s' c] & r & E & H1 & H2); auto.
  exists s', c, r. auto.
Qed.

(** The quadratic of C33_case on points with rational coordinates is such an objective. *)
Example C33_total_case : total_objective (fun _ => True) 2 quad_obj (fun x a => quad_f x = Some a).
Proof.
  split.
  - intros st x _ _. exists (S st). cbn. eauto.
  - intros st x _ Hx. cbn. do 2 eexists. split; [reflexivity|]. split; auto. intros a g H. unfold quad_f.
    destruct x as [|[x| |] [|[y| |] [|]]]; try discriminate. injection H as <- <-. auto.
Qed.
Print Assumptions C33_bfgs_total.
Print Assumptions C33_newton_total.
