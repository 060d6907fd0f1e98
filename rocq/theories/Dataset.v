(** Model of datasets and mini-batches. symbolic_regression/src/dataset.rs. *)
From Verif Require Import Base Node Compile Eval Rng.

(** dataset.rs:27-39 [Dataset]; variable names are left out (they are only printed). *)
Record dataset (T : Type) : Type := mkData {
  ds_x : matrix T;
  ds_y : list T;
  ds_n_features : nat;
  ds_n_rows : nat;
  ds_weights : option (list T);
  ds_avg_y : T }.
Arguments mkData {T}. Arguments ds_x {T}. Arguments ds_y {T}. Arguments ds_n_features {T}. Arguments ds_n_rows {T}.
Arguments ds_weights {T}. Arguments ds_avg_y {T}.

(** [iter().fold(T::zero(), |a, b| a + b)] *)
Definition fsum {T} (F : FloatOps T) (l : list T) : T := fold_left (fadd F) l (fzero F).

(** dataset.rs:91-110 [compute_avg_y]; [of_nat] is [T::from(usize).unwrap()]. *)
Definition compute_avg_y {T} (F : FloatOps T) (of_nat : nat -> T) (y : list T) (w : option (list T)) : res T :=
  match y with
  | [] => Ok (fzero F)
  | _ =>
      match w with
      | None => Ok (fdiv F (fsum F y) (of_nat (List.length y)))
      | Some w =>
          let! z := zip_eq y w in
          Ok (fdiv F (fsum F (map (fun p => fmul F (fst p) (snd p)) z)) (fsum F w))
      end
  end.

(** dataset.rs:42-68 [build_dataset]; the layout conversion does not change the contents. *)
Definition build_dataset {T} (F : FloatOps T) (of_nat : nat -> T) (x : matrix T) (y : list T) (w : option (list T))
    (avg : option T) : res (dataset T) :=
  let! _ := assert_ (List.length y =? m_ncols x) in
  let! _ := match w with Some w => assert_ (List.length w =? m_ncols x) | None => Ok tt end in
  let! a := match avg with Some a => Ok a | None => compute_avg_y F of_nat y w end in
  Ok (mkData x y (m_nrows x) (m_ncols x) w a).

(** dataset.rs:112-121 [make_batch_buffer]. *)
Definition make_batch_buffer {T} (F : FloatOps T) (of_nat : nat -> T) (full : dataset T) (batch_size : nat) : res (dataset T) :=
  if ds_n_rows full =? 0 then Panic
  else
    let b := Nat.max batch_size 1 in
    build_dataset F of_nat (zeros F (ds_n_features full) b) (fill b (fzero F))
      (match ds_weights full with Some _ => Some (fill b (fzero F)) | None => None end) (Some (ds_avg_y full)).

(** dataset.rs:139: [self.x.column_mut(dst).assign(&full.x.column(src))], feature by feature from [f]. *)
Fixpoint assign_column {T} (k f : nat) (dst : list T) (dcols dcol : nat) (srcd : list T) (scols scol : nat) : res (list T) :=
  match k with
  | 0 => Ok dst
  | S k' =>
      let! v := index srcd (f * scols + scol) in
      let! dst := set_index dst (f * dcols + dcol) v in
      assign_column k' (S f) dst dcols dcol srcd scols scol
  end.

(** dataset.rs:138-144: the loop over the batch rows, [k] rows remaining from row [i]. *)
Fixpoint resample_loop {T W} (k i : nat) (b full : dataset T) (r : rng W) : res (dataset T * rng W) :=
  match k with
  | 0 => Ok (b, r)
  | S k' =>
      let! (src, r) := usize_range r 0 (ds_n_rows full) in
      let! x := assign_column (ds_n_features b) 0 (m_data (ds_x b)) (m_ncols (ds_x b)) i
                  (m_data (ds_x full)) (m_ncols (ds_x full)) src in
      let! yv := index (ds_y full) src in
      let! y := set_index (ds_y b) i yv in
      let! w := match ds_weights b, ds_weights full with
                | Some d, Some s => let! v := index s src in let! d := set_index d i v in Ok (Some d)
                | _, _ => Ok (ds_weights b)
                end in
      resample_loop k' (S i)
        (mkData (mkMat x (m_nrows (ds_x b)) (m_ncols (ds_x b))) y (ds_n_features b) (ds_n_rows b) w (ds_avg_y b)) full r
  end.

(** dataset.rs:123-145 [resample_from]. *)
Definition resample_from {T W} (b full : dataset T) (r : rng W) : res (dataset T * rng W) :=
  if ds_n_rows full =? 0 then Panic
  else
    let! _ := assert_ (ds_n_features b =? ds_n_features full) in
    let! _ := assert_ (m_nrows (ds_x b) =? ds_n_features b) in
    let! _ := assert_ (m_ncols (ds_x b) =? ds_n_rows b) in
    let! _ := assert_ (List.length (ds_y b) =? ds_n_rows b) in
    let! _ := match ds_weights b with
              | Some w =>
                  let! _ := assert_ (List.length w =? ds_n_rows b) in
                  assert_ (match ds_weights full with Some _ => true | None => false end)
              | None => assert_ (match ds_weights full with Some _ => false | None => true end)
              end in
    resample_loop (ds_n_rows b) 0 b full r.
