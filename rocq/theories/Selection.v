(** Model of tournament selection, shuffling and the adaptive-parsimony statistics.
    symbolic_regression/src/selection.rs, random.rs:77-93, adaptive_parsimony.rs.
    [W] is f64, the type of all bookkeeping numbers; [T] is the scalar type of the members. *)
From Verif Require Import Base Node Compile Rng Registry Complexity Member.

(** [slice::swap] *)
Definition swap {A} (l : list A) (i j : nat) : res (list A) :=
  let! x := index l i in
  let! y := index l j in
  Ok (upd (upd l i y) j x).

(** random.rs:77-85 [shuffle]: [for i in (1..len).rev()], here from index [i] downwards. *)
Fixpoint shuffle_from {A W} (i : nat) (r : rng W) (l : list A) : res (list A * rng W) :=
  match i with
  | 0 => Ok (l, r)
  | S i' =>
      let! (j, r) := usize_range r 0 (S i) in       (* rng.usize(0..=i) *)
      let! l := swap l i j in
      shuffle_from i' r l
  end.
Definition shuffle {A W} (r : rng W) (l : list A) : res (list A * rng W) :=
  if List.length l <=? 1 then Ok (l, r) else shuffle_from (List.length l - 1) r l.

(** selection.rs:70-76: sum of the weights, panicking on an invalid one. *)
Fixpoint sum_weights {W} (FW : FloatOps W) (ws : list W) (total : W) : res W :=
  match ws with
  | [] => Ok total
  | w :: ws' =>
      if negb (ffinite FW w) || fltb FW w (fzero FW) then Panic
      else sum_weights FW ws' (fadd FW total w)
  end.

(** selection.rs:82-91: the loop; [last] is [weights.len() - 1]. *)
Fixpoint pick_weight {W} (FW : FloatOps W) (ws : list W) (idx : nat) (target : W) (last : nat) : nat :=
  match ws with
  | [] => last
  | w :: ws' =>
      if fleb FW w (fzero FW) then pick_weight FW ws' (S idx) target last
      else if fltb FW target w then idx
      else pick_weight FW ws' (S idx) (fsub FW target w) last
  end.

(** selection.rs:66-92 [weighted_index]. *)
Definition weighted_index {W} (FW : FloatOps W) (r : rng W) (ws : list W) : res (nat * rng W) :=
  match ws with
  | [] => Panic
  | _ =>
      let! total := sum_weights FW ws (fzero FW) in
      if negb (ffinite FW total) || fleb FW total (fzero FW) then Panic
      else
        let '(u, r) := rng_real r in
        Ok (pick_weight FW ws 0 (fmul FW u total) (List.length ws - 1), r)
  end.

(** selection.rs:104-109: the rejection loop, with fuel for the [while]. *)
Fixpoint reject_loop {W} (fuel len take : nat) (r : rng W) (out : list nat) : res (list nat * rng W) :=
  if List.length out <? take then
    match fuel with
    | 0 => OutOfFuel
    | S fuel' =>
        let! (idx, r) := usize_range r 0 len in
        reject_loop fuel' len take r (if existsb (Nat.eqb idx) out then out else out ++ [idx])
    end
  else Ok (out, r).

(** selection.rs:113-116: the partial shuffle. *)
Fixpoint partial_shuffle {W} (is : list nat) (len : nat) (r : rng W) (v : list nat) : res (list nat * rng W) :=
  match is with
  | [] => Ok (v, r)
  | i :: is' =>
      let! (j, r) := usize_range r i len in
      let! v := swap v i j in
      partial_shuffle is' len r v
  end.

(** selection.rs:94-120 [sample_indices]. *)
Definition sample_indices {W} (fuel : nat) (r : rng W) (len n : nat) : res (list nat * rng W) :=
  let take := Nat.min n len in
  if (len =? 0) || (n =? 0) then Ok ([], r)
  else if take =? len then Ok (seq 0 len, r)
  else if take * take <=? len then reject_loop fuel len take r []
  else
    let! (v, r) := partial_shuffle (seq 0 take) len r (seq 0 len) in
    Ok (firstn take v, r).

(** selection.rs:25-30: [n] geometric weights p, pq, pq^2, ... *)
Fixpoint geometric {W} (FW : FloatOps W) (n : nat) (cur q : W) : list W :=
  match n with
  | 0 => []
  | S n' => cur :: geometric FW n' (fmul FW cur q) q
  end.

(** selection.rs:11-32 [sample_tournament_place]; the f32 [p] is given as its f64 value. *)
Definition sample_tournament_place {W} (FW : FloatOps W) (r : rng W) (n : nat) (p : W) : res (nat * rng W) :=
  if (n <=? 1) || fgeb FW p (fone FW) then Ok (1, r)
  else if fleb FW p (fzero FW) then Panic
  else
    let q := fsub FW (fone FW) p in
    if fleb FW q (fzero FW) then Ok (1, r)
    else
      let! (k, r) := weighted_index FW r (geometric FW n p q) in
      Ok (k + 1, r).

(** adaptive_parsimony.rs:5-10 [RunningSearchStatistics]. *)
Record stats (W : Type) : Type := mkStats { st_window : W; st_freq : list W; st_norm : list W }.
Arguments mkStats {W}. Arguments st_window {W}. Arguments st_freq {W}. Arguments st_norm {W}.

(** The options used by selection (options.rs). *)
Record sel_opts (W : Type) : Type := mkSel {
  tournament_selection_n : nat;
  tournament_selection_p : W;
  use_frequency_in_tournament : bool;
  adaptive_parsimony_scaling : W;
  sel_maxsize : nat }.
Arguments mkSel {W}. Arguments tournament_selection_n {W}. Arguments tournament_selection_p {W}.
Arguments use_frequency_in_tournament {W}. Arguments adaptive_parsimony_scaling {W}. Arguments sel_maxsize {W}.

(** selection.rs:45-56: the adjusted cost of one member; [to_f64] is [ToPrimitive::to_f64], [wexp] is [f64::exp]. *)
Definition adjusted_cost {T W} (FW : FloatOps W) (to_f64 : T -> option W) (wexp : W -> W) (st : stats W) (o : sel_opts W)
    (m : member T) : res W :=
  let adjusted := match to_f64 (m_cost m) with Some x => x | None => finf FW end in
  if use_frequency_in_tournament o then
    let size := m_complexity m in
    let! freq := (if (0 <? size) && (size <=? sel_maxsize o) then index (st_norm st) (size - 1) else Ok (fzero FW)) in
    Ok (fmul FW adjusted (wexp (fmul FW (adaptive_parsimony_scaling o) freq)))
  else Ok adjusted.

(** selection.rs:34-64 [best_of_sample]; returns the position chosen as well. [scored.len() - 1] underflows on an empty
    sample, a panic either there or at the indexing. *)
Definition best_of_sample {T W} (FW : FloatOps W) (to_f64 : T -> option W) (wexp : W -> W) (fuel : nat) (r : rng W)
    (ms : list (member T)) (st : stats W) (o : sel_opts W) : res (member T * rng W) :=
  let n := Nat.min (tournament_selection_n o) (List.length ms) in
  let! (indices, r) := sample_indices fuel r (List.length ms) n in
  let! scored := mapM (fun idx => let! m := index ms idx in
                                  let! a := adjusted_cost FW to_f64 wexp st o m in Ok (a, idx)) indices in
  let! (place, r) := sample_tournament_place FW r (List.length scored) (tournament_selection_p o) in
  let! _ := assert_ (0 <? List.length scored) in
  let place_index := Nat.min (place - 1) (List.length scored - 1) in
  let scored := sort_by (fun a b => cmp_or_greater FW (fst a) (fst b)) scored in
  let! (_, chosen) := index scored place_index in
  let! m := index ms chosen in
  Ok (m, r).

(** adaptive_parsimony.rs:13-21 [new]. [iter().sum::<f64>()] folds from the left. *)
Definition wsum {W} (FW : FloatOps W) (l : list W) : W := fold_left (fadd FW) l (fzero FW).
Definition stats_new {W} (FW : FloatOps W) (of_nat : nat -> W) (maxsize window_size : nat) : stats W :=
  let init := fill maxsize (fone FW) in
  let sum := wsum FW init in
  mkStats (of_nat window_size) init (map (fun v => fdiv FW v sum) init).

(** adaptive_parsimony.rs:23-27 [update_frequencies]. *)
Definition update_frequencies {W} (FW : FloatOps W) (s : stats W) (size : nat) : stats W :=
  if (0 <? size) && (size <=? List.length (st_freq s)) then
    match nth_error (st_freq s) (size - 1) with
    | Some v => mkStats (st_window s) (upd (st_freq s) (size - 1) (fadd FW v (fone FW))) (st_norm s)
    | None => s
    end
  else s.

(** adaptive_parsimony.rs:29-33 [update_from_population]. *)
Definition update_from_population {W} (FW : FloatOps W) (s : stats W) (sizes : list nat) : stats W :=
  fold_left (update_frequencies FW) sizes s.

(** [f64::min], which ignores a NaN argument. *)
Definition wmin {W} (FW : FloatOps W) (a b : W) : W :=
  if negb (feqb FW a a) then b else if negb (feqb FW b b) then a else if fltb FW b a then b else a.

(** adaptive_parsimony.rs:46-74: the [while] loop of [move_window]; [loops] counts the turns done and
    the loop ends by itself after [max_loops] + 1 turns. [eps] is 1e-6. *)
Fixpoint move_window_loop {W} (FW : FloatOps W) (of_nat : nat -> W) (eps : W) (turns_left : nat)
    (freqs : list W) (remaining : W) : list W :=
  match turns_left with
  | 0 => freqs
  | S turns' =>
      if negb (fltb FW (fzero FW) remaining) then freqs
      else
        let above := filter (fun v => fltb FW (fone FW) v) freqs in
        match above with
        | [] => freqs
        | _ =>
            let num_remaining := of_nat (List.length above) in
            let min_above := fold_left (wmin FW) above (finf FW) in
            let amount := wmin FW (fdiv FW remaining num_remaining) (fsub FW min_above (fone FW)) in
            if negb (fltb FW (fzero FW) amount) then freqs
            else
              let freqs := map (fun v => if fltb FW (fone FW) v then fsub FW v amount else v) freqs in
              let total := fmul FW amount num_remaining in
              let remaining := fsub FW remaining total in
              if fltb FW total eps then freqs
              else move_window_loop FW of_nat eps turns' freqs remaining
        end
  end.
Definition max_turns : nat := 1001.

(** adaptive_parsimony.rs:35-75 [move_window]. *)
Definition move_window {W} (FW : FloatOps W) (of_nat : nat -> W) (eps : W) (s : stats W) : stats W :=
  let cur_sum := wsum FW (st_freq s) in
  if fleb FW cur_sum (st_window s) then s
  else mkStats (st_window s) (move_window_loop FW of_nat eps max_turns (st_freq s) (fsub FW cur_sum (st_window s))) (st_norm s).

(** adaptive_parsimony.rs:77-89 [normalize]. After the resize the lengths agree, so [zip_eq] does not panic. *)
Definition normalize {W} (FW : FloatOps W) (s : stats W) : stats W :=
  let sum := wsum FW (st_freq s) in
  if feqb FW sum (fzero FW) then mkStats (st_window s) (st_freq s) (map (fun _ => fzero FW) (st_norm s))
  else mkStats (st_window s) (st_freq s) (map (fun v => fdiv FW v sum) (st_freq s)).

(** [f64::max], which ignores a NaN argument. *)
Definition wmax {W} (FW : FloatOps W) (a b : W) : W :=
  if negb (feqb FW a a) then b else if negb (feqb FW b b) then a else if fltb FW a b then b else a.

(** adaptive_parsimony.rs:91-97 [freq]. *)
Definition freq {W} (FW : FloatOps W) (eps : W) (s : stats W) (size : nat) : res W :=
  if (size =? 0) || (List.length (st_norm s) <? size) then Ok eps
  else let! v := index (st_norm s) (size - 1) in Ok (wmax FW v eps).
