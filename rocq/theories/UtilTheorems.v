(** Theorems about the array utilities (C30, C31, C32), the storage of input arrays (C57) and the
    blocks of the QR factorisation (C56). *)
From Coq Require Import ZArith List Bool Reals Lia.
From Flocq Require Import Core IEEE754.BinarySingleNaN.
From Verif Require Import Base Par F64 SplitModel SplitSpec UtilModel UtilSpec UtilProofs
  QrModel QrSpec QrProofs.
Import ListNotations.
Local Open Scope Z_scope.

(** C30.  For all shapes, leading dimensions and schedules of the block iterations, the copy
    places element (r, c) where it belongs, changes no other position, stays inside both matrices
    and writes no position twice. *)
Theorem transpose_row_to_column : forall (T : Type) (A B : Z -> T) n_rows n_cols lda ldb tr,
  n_rows <= ldb -> interleaving (row_to_column n_rows n_cols lda ldb) tr ->
  (forall r c, 0 <= r < n_rows -> 0 <= c < n_cols ->
     run_copies A B tr (pos column_major ldb r c) = A (pos row_major lda r c)) /\
  (forall p, ~ inside column_major ldb n_rows n_cols p -> run_copies A B tr p = B p) /\
  (forall w, In w tr -> inside column_major ldb n_rows n_cols (fst w) /\
                        inside row_major lda n_rows n_cols (snd w)) /\
  NoDup (map fst tr).
Proof. exact @row_to_column_correct. Qed.
Print Assumptions transpose_row_to_column.

Theorem transpose_column_to_row : forall (T : Type) (A B : Z -> T) n_rows n_cols lda ldb tr,
  n_cols <= ldb -> interleaving (column_to_row n_rows n_cols lda ldb) tr ->
  (forall r c, 0 <= r < n_rows -> 0 <= c < n_cols ->
     run_copies A B tr (pos row_major ldb r c) = A (pos column_major lda r c)) /\
  (forall p, ~ inside row_major ldb n_rows n_cols p -> run_copies A B tr p = B p) /\
  (forall w, In w tr -> inside row_major ldb n_rows n_cols (fst w) /\
                        inside column_major lda n_rows n_cols (snd w)) /\
  NoDup (map fst tr).
Proof. exact @column_to_row_correct. Qed.
Print Assumptions transpose_column_to_row.

(** A 65 x 2 matrix takes two iterations; run in the opposite order. *)
Example transpose_case :
  length (row_to_column 65 2 3 70) = 2%nat /\
  let B := run_copies (fun p => p) (fun _ => -1) (concat (rev (row_to_column 65 2 3 70))) in
  map B [0; 64; 65; 70; 134; 135] = [0; 192; -1; 1; 193; -1] /\
  let B := run_copies (fun p => p) (fun _ => -1) (concat (rev (column_to_row 2 65 3 70))) in
  map B [0; 64; 65; 70; 134; 135] = [0; 192; -1; 1; 193; -1].
Proof. vm_compute. repeat split. Qed.

(** C31.  The blocks of blocking_scheme, as its callers lay them out, partition the samples. *)
Theorem blocking_scheme_partitions : forall n block_size, 0 <= n -> 0 < block_size ->
  exists k rem, blocking_scheme n block_size = Some (k, rem) /\
    partitions n k (block_off block_size) (block_len k block_size rem) /\
    k = (n + block_size - 1) / block_size.
Proof. exact blocking_scheme_correct. Qed.
Print Assumptions blocking_scheme_partitions.

(** C31, what holds of tall_skinny_blocking_scheme: the blocks partition the samples, all but the
    last have at least the minimum block size, the last at least the minimum size of a last block
    (both cut down to what is available), and there is at most one block more than requested when
    at most 256 are; a single block has all the samples.  Missing: that the requested maximum is respected, which is false. *)
Theorem tall_skinny_partitions_partial : forall n min_block max_blocks min_final,
  1 <= n -> 1 <= min_block -> 1 <= max_blocks -> 1 <= min_final ->
  exists k bs final,
    tall_skinny_blocking_scheme n min_block max_blocks min_final = Some (k, bs, final) /\
    partitions n k (block_off bs) (tall_block_len k bs final) /\
    (forall b, 0 <= b < k - 1 -> Z.min min_block n <= tall_block_len k bs final b) /\
    Z.min min_final (Z.min min_block n) <= final /\
    (max_blocks <= 256 -> k <= max_blocks + 1) /\
    (k = 1 -> bs = n).
Proof. exact tall_correct. Qed.
Print Assumptions tall_skinny_partitions_partial.

Example blocking_case :
  blocking_scheme 1000 256 = Some (4, 232) /\ blocking_scheme 1024 256 = Some (4, 0) /\
  blocking_scheme 0 256 = Some (0, 0) /\
  tall_skinny_blocking_scheme 10000 1024 4 5 = Some (4, 2560, 2320) /\
  tall_skinny_blocking_scheme 10245 1024 4 600 = Some (4, 2816, 1797) /\
  tall_skinny_blocking_scheme 1500 1024 4 600 = Some (1, 1500, 1500).
Proof. repeat split. Qed.

(** C31 is false for the maximum: the documented bound on the number of blocks is exceeded, by two
    when more than 256 blocks are allowed. *)
Theorem tall_skinny_max_blocks_refuted :
  (exists k bs final, tall_skinny_blocking_scheme 4097 1024 4 1 = Some (k, bs, final) /\ 4 < k) /\
  (exists k bs final, tall_skinny_blocking_scheme 131583 16 512 1 = Some (k, bs, final) /\ k = 514).
Proof. split; eexists _, _, _; split; [vm_compute; reflexivity| |vm_compute; reflexivity|]; reflexivity. Qed.
Print Assumptions tall_skinny_max_blocks_refuted.

(** C32, what holds: a NaN is always found; when the other elements are below 2^53 in magnitude the
    matrix is refused exactly when it contains a NaN.  Missing: larger numbers and infinities,
    where the claim is false. *)
Theorem check_data_finds_nan : forall o n_rows n_cols X ld,
  1 <= n_rows -> 1 <= n_cols -> good_ld o n_rows n_cols ld ->
  has_element o n_rows n_cols ld X nan_value ->
  check_data o n_rows n_cols false X ld = st_invalid_input.
Proof. exact check_data_nan. Qed.
Print Assumptions check_data_finds_nan.

(** The elements are looked at exactly when the arguments describe a matrix. *)
Theorem check_data_arguments : forall o n_rows n_cols nul X ld,
  check_data o n_rows n_cols nul X ld = st_success \/ check_data o n_rows n_cols nul X ld = st_invalid_input <->
  1 <= n_rows /\ 1 <= n_cols /\ nul = false /\ good_ld o n_rows n_cols ld.
Proof. exact check_data_args. Qed.
Print Assumptions check_data_arguments.

Theorem check_data_exact_partial : forall o n_rows n_cols X ld,
  1 <= n_rows -> 1 <= n_cols -> good_ld o n_rows n_cols ld ->
  (forall r c, 0 <= r < n_rows -> 0 <= c < n_cols ->
     nan_value (X (pos o ld r c)) \/ moderate (X (pos o ld r c))) ->
  (check_data o n_rows n_cols false X ld = st_invalid_input <->
     has_element o n_rows n_cols ld X nan_value) /\
  (check_data o n_rows n_cols false X ld = st_success <->
     ~ has_element o n_rows n_cols ld X nan_value).
Proof. exact check_data_exact. Qed.
Print Assumptions check_data_exact_partial.

Theorem check_2D_array_exact_partial : forall o n_rows n_cols X ld rows_min cols_min,
  o <> other_order -> 1 <= n_rows -> 1 <= n_cols -> rows_min <= n_rows -> cols_min <= n_cols ->
  good_ld o n_rows n_cols ld ->
  (forall r c, 0 <= r < n_rows -> 0 <= c < n_cols ->
     nan_value (X (pos o ld r c)) \/ moderate (X (pos o ld r c))) ->
  (check_2D_array true o n_rows n_cols false X ld rows_min cols_min = st_invalid_input <->
     has_element o n_rows n_cols ld X nan_value) /\
  (check_2D_array true o n_rows n_cols false X ld rows_min cols_min = st_success <->
     ~ has_element o n_rows n_cols ld X nan_value).
Proof. exact check_2D_exact. Qed.
Print Assumptions check_2D_array_exact_partial.

(** A 2 x 2 row-major matrix with one padding column: a NaN in the padding is not an element. *)
Example check_data_case :
  let X k := fun p => if p =? k then (B754_nan : f64) else f64_of_Z (p * p - 3) in
  check_data row_major 2 2 false (X 4) 3 = st_invalid_input /\
  check_data row_major 2 2 false (X 2) 3 = st_success /\
  check_data column_major 2 2 false (X 2) 3 = st_success /\
  check_2D_array true row_major 2 2 false (X 4) 3 1 1 = st_invalid_input /\
  check_2D_array true row_major 2 2 false (X 4) 1 1 1 = st_invalid_leading_dimension.
Proof. vm_compute. repeat split. Qed.

(** C32 is false: an infinity, or the finite number 2^53, is reported as a NaN. *)
Theorem check_data_only_nan_refuted :
  (let X := fun _ => (B754_infinity false : f64) in
   ~ has_element row_major 1 1 1 X nan_value /\
   check_data row_major 1 1 false X 1 = st_invalid_input) /\
  (let X := fun _ => f64_of_Z (2 ^ 53) in
   ~ has_element row_major 1 1 1 X nan_value /\
   check_data row_major 1 1 false X 1 = st_invalid_input).
Proof.
  split; (split; [intros (r & c & _ & _ & H); vm_compute in H; discriminate H|vm_compute; reflexivity]).
Qed.
Print Assumptions check_data_only_nan_refuted.

(** C57.  When storing the input succeeds (mode 0, the mode of all training functions), the array
    the algorithms read holds, in column-major order, the matrix the caller passed in the order of
    the handle, for every schedule of the copies; a new array is never written outside. *)
Theorem stored_input_is_the_matrix :
  forall (T : Type) (values junk : Z -> T) handle_order option_order check n_rows n_cols nul data
    ld rows_min cols_min o i ldi tr,
  store_2D_array handle_order option_order check n_rows n_cols nul data ld 0 rows_min cols_min
    = (st_success, o, i, ldi) ->
  internal_schedule i tr ->
  (forall r c, 0 <= r < n_rows -> 0 <= c < n_cols ->
     internal_values values junk i tr (pos column_major ldi r c) = values (pos o ld r c)) /\
  n_rows <= ldi /\
  (forall size its, i = INew size its -> forall w, In w tr ->
     0 <= fst w < size /\ inside o ld n_rows n_cols (snd w)).
Proof. exact @store_values. Qed.
Print Assumptions stored_input_is_the_matrix.

(** C57.  Results are delivered without padding in the order of the handle: storing a matrix and
    copying it back gives the matrix the caller passed. *)
Theorem stored_input_copied_back :
  forall (T : Type) (values junk res : Z -> T) handle_order option_order check n_rows n_cols nul
    data ld rows_min cols_min o i ldi tr,
  store_2D_array handle_order option_order check n_rows n_cols nul data ld 0 rows_min cols_min
    = (st_success, o, i, ldi) ->
  internal_schedule i tr ->
  forall r c, 0 <= r < n_rows -> 0 <= c < n_cols ->
  run_copies (internal_values values junk i tr) res (copy_2D_results_array o n_rows n_cols ldi)
    (pos o (dense_ld o n_rows n_cols) r c) = values (pos o ld r c).
Proof. exact @store_then_copy. Qed.
Print Assumptions stored_input_copied_back.

Theorem results_array_layout : forall (T : Type) (data res : Z -> T) o n_rows n_cols ld,
  o <> other_order ->
  (forall r c, 0 <= r < n_rows -> 0 <= c < n_cols ->
     run_copies data res (copy_2D_results_array o n_rows n_cols ld)
       (pos o (dense_ld o n_rows n_cols) r c) = data (pos column_major ld r c)) /\
  (forall p, ~ (0 <= p < n_rows * n_cols) ->
     run_copies data res (copy_2D_results_array o n_rows n_cols ld) p = res p).
Proof. exact @results_correct. Qed.
Print Assumptions results_array_layout.

Example store_case :
  let X := fun p => f64_of_Z p in
  match store_2D_array column_major (Some row_major) true 2 3 false X 4 0 1 1 with
  | (st_success, row_major, INew 6 its, 2) =>
      let V := run_copies (fun p => p) (fun _ => -1) (concat its) in
      map V [0; 1; 2; 3; 4; 5; 6] = [0; 4; 1; 5; 2; 6; -1] /\
      map (run_copies V (fun _ => -1) (copy_2D_results_array row_major 2 3 2)) [0; 1; 2; 3; 4; 5; 6]
      = [0; 1; 2; 4; 5; 6; -1]
  | _ => False
  end.
Proof. vm_compute. repeat split. Qed.

(** C56, what holds: when there are at most 1024 columns, or when the maximal number of blocks is
    what limits the blocking, every block of rows is at least as tall as wide and all accesses to
    tau, to the block and to R_blocked are in place.  Missing: the remaining shapes. *)
Theorem qr_blocks_sound_partial : forall n_threads m n,
  1 <= n_threads -> 1 <= n -> n <= m ->
  (n <= QR_MIN_BLOCK_SIZE \/
   forall mx, qr_max_blocks n_threads m n = Some mx -> mx < m / Z.min QR_MIN_BLOCK_SIZE m) ->
  exists k bs final, qr_blocks n_threads m n = Some (k, bs, final) /\ qr_sound m n k bs final.
Proof. exact qr_partial. Qed.
Print Assumptions qr_blocks_sound_partial.

Example qr_case :
  qr_blocks 64 100000 1000 = Some (56, 1792, 1440) /\
  qr_blocks 64 20000 3000 = Some (5, 3584, 5664) /\
  qr_max_blocks 64 20000 3000 = Some 6 /\ 20000 / Z.min QR_MIN_BLOCK_SIZE 20000 = 19.
Proof. repeat split. Qed.

(** C56 is false: 3071 x 1500 with 64 threads is cut into 1024 + 2047 rows, so the first block is
    wider than tall, and the second block's factors are written past the end of tau. *)
Theorem qr_blocks_sound_refuted :
  exists k bs final, qr_blocks 64 3071 1500 = Some (k, bs, final) /\
    bs < 1500 /\
    qr_tau_size k bs final 1500 < snd (qr_tau_range k bs final 1500 1) /\
    exists r' c, In (bs, r', c) (qr_copies bs 1500 0).
Proof.
  exists 2, 1024, 2047. split; [reflexivity|]. split; [reflexivity|]. split; [reflexivity|].
  exists 1024, 1024. unfold qr_copies. apply in_flat_map. exists 1024. split; [apply in_zrange; lia|].
  apply in_map_iff. exists 1024. split; [reflexivity|apply in_zrange; lia].
Qed.
Print Assumptions qr_blocks_sound_refuted.
