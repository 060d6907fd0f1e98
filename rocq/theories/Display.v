(** Model of the hall-of-fame table of symbolic_regression/src/progress_bars.rs (plain rendering). *)
From Verif Require Import Base.

(** A Rust [str] as its UTF-8 bytes; a byte is a number. A continuation byte is 0b10xxxxxx. *)
Definition is_cont (b : nat) : bool := (128 <=? b) && (b <? 192).
(** core [str::is_char_boundary]. *)
Definition is_char_boundary (s : list nat) (i : nat) : bool :=
  if i =? 0 then true else
  match nth_error s i with Some b => negb (is_cont b) | None => i =? List.length s end.
(** [&s[a..b]] on a [str]: panics when a bound is out of range or inside a character. *)
Definition str_slice (s : list nat) (a b : nat) : res (list nat) :=
  let! _ := assert_ ((a <=? b) && (b <=? List.length s) && is_char_boundary s a && is_char_boundary s b) in
  Ok (firstn (b - a) (skipn a s)).
(** [s.chars().count()]: the number of bytes that start a character. *)
Definition char_count (s : list nat) : nat := List.length (filter (fun b => negb (is_cont b)) s).
(** [s.chars().take(n).collect()]. *)
Fixpoint take_chars (n : nat) (s : list nat) : list nat :=
  match s with
  | [] => []
  | b :: s' => if is_cont b then b :: take_chars n s' else match n with 0 => [] | S n' => b :: take_chars n' s' end
  end.

(** progress_bars.rs:272 [dots]: "...". *)
Definition dots : list nat := [46; 46; 46].

(** progress_bars.rs:283-285: the inner while loop, moving [end] back to a character boundary. *)
Fixpoint back_to_boundary (s : list nat) (start e : nat) : nat :=
  match e with
  | 0 => 0
  | S e' => if (start <? e) && negb (is_char_boundary s e) then back_to_boundary s start e' else e
  end.

(** progress_bars.rs:281-296: the outer while loop (fuel: one per byte of the text plus one). *)
Fixpoint wrap_loop (fuel : nat) (eqn : list nat) (avail start : nat) (out : list (list nat)) : res (list (list nat)) :=
  match fuel with
  | 0 => OutOfFuel
  | S fuel =>
      if List.length eqn <=? start then Ok out else
      let e := back_to_boundary eqn start (Nat.min (start + avail) (List.length eqn)) in
      if e =? start then Ok out else
      let! chunk := str_slice eqn start e in
      wrap_loop fuel eqn avail e (out ++ [if e <? List.length eqn then chunk ++ dots else chunk])
  end.

(** progress_bars.rs:271-297 [wrap_equation]. *)
Definition wrap_equation (eqn : list nat) (terminal_width left_cols_width : nat) : res (list (list nat)) :=
  wrap_loop (S (List.length eqn)) eqn (Nat.max (terminal_width - 1 - left_cols_width - List.length dots) 10) 0 [].

(** progress_bars.rs:299-309 [truncate_to_width] with [render.ansi = false] (the ANSI branch calls the console crate and is not modelled). *)
Definition truncate_to_width (s : list nat) (terminal_width : nat) : list nat :=
  let max := terminal_width - 1 in
  if char_count s <=? max then s else take_chars max s.

(** progress_bars.rs:243-265: the lines printed for one member; [stats] is the text of line 245, [eqn] of line 248. *)
Definition member_lines (terminal_width : nat) (stats eqn : list nat) : res (list (list nat)) :=
  let left_cols_width := char_count stats in
  let! eqn_lines := wrap_equation eqn terminal_width left_cols_width in
  Ok (match eqn_lines with
      | first :: rest => truncate_to_width (stats ++ first) terminal_width
                         :: map (fun l => truncate_to_width (repeat 32 left_cols_width ++ l) terminal_width) rest
      | [] => [truncate_to_width stats terminal_width]
      end).

(** progress_bars.rs:198-269 [format_hall_of_fame] with [render.ansi = false]: the lines of the text. [front] gives the statistics and the equation of
    each member of the Pareto front (line 243), [border] the border character's bytes, [header] the text of line 210. *)
Definition format_hall_of_fame (border : list nat) (header : list nat) (front : list (list nat * list nat)) (terminal_width max_entries : nat)
  : res (list (list nat)) :=
  let terminal_width := Nat.max terminal_width 80 in
  let b := List.concat (repeat border (terminal_width - 1)) in
  let! rows := mapM (fun '(stats, eqn) => member_lines terminal_width stats eqn) (firstn max_entries front) in
  Ok (b :: truncate_to_width header terminal_width :: List.concat rows ++ [b]).
