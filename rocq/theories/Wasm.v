(** Model of the data handling of the web front end: web/wasm/src/lib.rs. An [Err(String)] is [Ok None]; the messages are left out. *)
From Verif Require Import Base Node Compile Eval Rng Selection Dataset.

(** lib.rs:86-94: the fields of [WasmSearchOptions] that select columns. *)
Record columns : Type := mkColumns { cl_x : option (list nat); cl_y : option nat; cl_w : option nat }.

(** lib.rs:599 [x_cols.sort_unstable()]: on numbers every sorting algorithm gives the same list. *)
Fixpoint insert_sorted (x : nat) (l : list nat) : list nat :=
  match l with [] => [x] | y :: l' => if x <=? y then x :: l else y :: insert_sorted x l' end.
Definition sort_nats (l : list nat) : list nat := fold_right insert_sorted [] l.
(** lib.rs:600 [x_cols.dedup()]: removes consecutive repetitions. *)
Fixpoint dedup (l : list nat) : list nat :=
  match l with
  | [] => []
  | x :: l' => match l' with [] => [x] | y :: _ => if x =? y then dedup l' else x :: dedup l' end
  end.

(** lib.rs:595-600: the feature columns. *)
Definition feature_columns (c : columns) (n_cols y_col : nat) : list nat :=
  dedup (sort_nats (match cl_x c with
                    | Some v => v
                    | None => filter (fun i => negb (i =? y_col) && negb (match cl_w c with Some w => i =? w | None => false end)) (seq 0 n_cols)
                    end)).

(** lib.rs:566-615: all the checks; [None] = error, otherwise (target column, weight column, feature columns). *)
Definition checked_columns {T} (rows : list (list T)) (c : columns) : option (nat * option nat * list nat) :=
  match rows with
  | [] => None
  | first :: _ =>
      let n_cols := List.length first in
      if n_cols <? 2 then None else
      if existsb (fun row => negb (List.length row =? n_cols)) rows then None else
      let y_col := match cl_y c with Some y => y | None => n_cols - 1 end in
      if n_cols <=? y_col then None else
      if match cl_w c with Some w => (n_cols <=? w) || (w =? y_col) | None => false end then None else
      let xs := feature_columns c n_cols y_col in
      if match xs with [] => true | _ => false end then None else
      if existsb (fun i => n_cols <=? i) xs then None else
      if existsb (Nat.eqb y_col) xs then None else
      if match cl_w c with Some w => existsb (Nat.eqb w) xs | None => false end then None else
      Some (y_col, cl_w c, xs)
  end.

Section Wasm.
Context {T N : Type} (F : FloatOps T) (of_nat : nat -> T) (default_name : nat -> N).

(** lib.rs:624-626: the features of row [i] into column [i] of [x], feature [j] on. *)
Fixpoint store_features (row : list T) (cols : list nat) (j i n_rows : nat) (x : list T) : res (list T) :=
  match cols with
  | [] => Ok x
  | c :: cols' =>
      let! v := index row c in
      let! x := set_index x (j * n_rows + i) v in
      store_features row cols' (S j) i n_rows x
  end.

(** lib.rs:623-631: the loop over the rows, from row [i]. *)
Fixpoint store_rows (rows : list (list T)) (cols : list nat) (y_col : nat) (w_col : option nat) (i n_rows : nat)
    (x y : list T) (w : option (list T)) : res (list T * list T * option (list T)) :=
  match rows with
  | [] => Ok (x, y, w)
  | row :: rows' =>
      let! x := store_features row cols 0 i n_rows x in
      let! v := index row y_col in
      let! y := set_index y i v in
      let! w := match w_col, w with
                | Some wc, Some wa => let! v := index row wc in let! wa := set_index wa i v in Ok (Some wa)
                | _, _ => Ok w
                end in
      store_rows rows' cols y_col w_col (S i) n_rows x y w
  end.

(** lib.rs:561-643 [build_full_dataset]: (dataset without weights, variable names, weights). *)
Definition build_full_dataset (has_headers : bool) (headers : list N) (rows : list (list T)) (c : columns)
  : res (option (dataset T * list N * option (list T))) :=
  match checked_columns rows c with
  | None => Ok None
  | Some (y_col, w_col, cols) =>
      let n_rows := List.length rows in
      let n_features := List.length cols in
      let n_cols := match rows with [] => 0 | r :: _ => List.length r end in
      let! (x, y, w) := store_rows rows cols y_col w_col 0 n_rows (fill (n_features * n_rows) (fzero F)) (fill n_rows (fzero F))
                          (match w_col with Some _ => Some (fill n_rows (fzero F)) | None => None end) in
      let! names := if has_headers && (List.length headers =? n_cols) then mapM (index headers) cols else Ok (map default_name (seq 0 n_features)) in
      let! d := build_dataset F of_nat (mkMat x n_features n_rows) y None None in
      Ok (Some (d, names, w))
  end.

(** lib.rs:645-670 [make_split_indices]. [rounded n] is [(vf * (n as f64)).round() as usize], line 654: (validation, training) rows. *)
Definition make_split_indices {W} (n_rows : nat) (rounded : nat -> nat) (r : rng W) : res (list nat * list nat) :=
  if n_rows =? 0 then Ok ([], []) else
  let n_val := Nat.min (rounded n_rows) n_rows in
  if n_val =? 0 then Ok ([], seq 0 n_rows) else
  let! (idx, _) := shuffle r (seq 0 n_rows) in
  Ok (firstn n_val idx, skipn n_val idx).

(** lib.rs:706-714: the copying loop of [select_rows], from new row [i]. *)
Fixpoint select_loop (indices : list nat) (i n : nat) (x : matrix T) (y : list T) (w : option (list T))
    (xo yo : list T) (wo : option (list T)) : res (list T * list T * option (list T)) :=
  match indices with
  | [] => Ok (xo, yo, wo)
  | i_old :: rest =>
      let! xo := assign_column (m_nrows x) 0 xo n i (m_data x) (m_ncols x) i_old in
      let! v := index y i_old in
      let! yo := set_index yo i v in
      let! wo := match w, wo with
                 | Some w_in, Some w_out => let! v := index w_in i_old in let! w_out := set_index w_out i v in Ok (Some w_out)
                 | _, _ => Ok wo
                 end in
      select_loop rest (S i) n x y w xo yo wo
  end.

(** lib.rs:689-716 [select_rows]. *)
Definition select_rows (x : matrix T) (y : list T) (w : option (list T)) (indices : list nat)
  : res (option (matrix T * list T * option (list T))) :=
  if existsb (fun i => m_ncols x <=? i) indices then Ok None else
  let n := List.length indices in
  let! (xo, yo, wo) := select_loop indices 0 n x y w (fill (m_nrows x * n) (fzero F)) (fill n (fzero F))
                         (match w with Some _ => Some (fill n (fzero F)) | None => None end) in
  Ok (Some (mkMat xo (m_nrows x) n, yo, wo)).

(** lib.rs:672-687 [split_train_val]; [split] = (validation, training) rows; variable names are left out. *)
Definition split_train_val (all : dataset T) (w : option (list T)) (split : list nat * list nat) : res (option (dataset T * option (dataset T))) :=
  let! tr := select_rows (ds_x all) (ds_y all) w (snd split) in
  match tr with
  | None => Ok None
  | Some (x, y, wt) =>
      let! train := build_dataset F of_nat x y wt None in
      match fst split with
      | [] => Ok (Some (train, None))
      | _ =>
          let! va := select_rows (ds_x all) (ds_y all) w (fst split) in
          match va with
          | None => Ok None
          | Some (x, y, wv) => let! val := build_dataset F of_nat x y wv None in Ok (Some (train, Some val))
          end
      end
  end.

End Wasm.
