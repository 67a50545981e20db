(** Model of the shared array utilities (source/core/utilities/da_utils.cpp) and of the way a
    handle stores its input (source/core/utilities/basic_handle.cpp).

    An array is a function from positions to values; pointers are kept as "null or not".  A copy
    [B[d] = A[s]] is the pair (d, s).  da_int is unbounded; products of indices do not overflow. *)
From Coq Require Import ZArith List Bool.
From Flocq Require Import Core IEEE754.BinarySingleNaN.
From Verif Require Import Base Par F64 SplitModel.
Import ListNotations.
Local Open Scope Z_scope.

Definition copy := (Z * Z)%type.
Definition store_at {T} (B : Z -> T) (d : Z) (x : T) : Z -> T := fun p => if p =? d then x else B p.
Definition run_copies {T} (A B : Z -> T) (l : list copy) : Z -> T :=
  fold_left (fun B w => store_at B (fst w) (A (snd w))) l B.

(** [for (x = lo; x < hi; x++)] *)
Definition span (lo hi : Z) : list Z := map (fun k => lo + k) (zrange (hi - lo)).
(** [for (x = 0; x < n; x += bs)] *)
Definition starts (n bs : Z) : list Z := map (fun k => k * bs) (zrange ((n + bs - 1) / bs)).

(** da_utils.cpp:51 *)
Definition TRANSPOSE_BLOCK_SIZE : Z := 64.

(** da_utils.cpp:142-158; one list of copies per iteration of the collapsed parallel loop *)
Definition row_to_column (n_rows n_cols lda ldb : Z) : list (list copy) :=
  flat_map (fun i_block =>
    map (fun j_block =>
      let i_end := Z.min (i_block + TRANSPOSE_BLOCK_SIZE) n_rows in
      let j_end := Z.min (j_block + TRANSPOSE_BLOCK_SIZE) n_cols in
      flat_map (fun i => map (fun j => (j * ldb + i, i * lda + j)) (span j_block j_end))
        (span i_block i_end))
      (starts n_cols TRANSPOSE_BLOCK_SIZE))
    (starts n_rows TRANSPOSE_BLOCK_SIZE).
(** da_utils.cpp:160-176 *)
Definition column_to_row (n_rows n_cols lda ldb : Z) : list (list copy) :=
  flat_map (fun j_block =>
    map (fun i_block =>
      let j_end := Z.min (j_block + TRANSPOSE_BLOCK_SIZE) n_cols in
      let i_end := Z.min (i_block + TRANSPOSE_BLOCK_SIZE) n_rows in
      flat_map (fun j => map (fun i => (j + i * ldb, i + j * lda)) (span i_block i_end))
        (span j_block j_end))
      (starts n_rows TRANSPOSE_BLOCK_SIZE))
    (starts n_cols TRANSPOSE_BLOCK_SIZE).

(** da_utils.cpp:93-100; [None] is the division by zero.  Division truncates (C++). *)
Definition blocking_scheme (n_samples block_size : Z) : option (Z * Z) :=
  if block_size =? 0 then None
  else let n_blocks := Z.quot n_samples block_size in
       let block_rem := Z.rem n_samples block_size in
       Some (if block_rem >? 0 then n_blocks + 1 else n_blocks, block_rem).

(** da_utils.cpp:109-132: the block count, the block size and the size of the last block *)
Definition tall_skinny_blocking_scheme (n_samples min_block_size max_blocks min_final : Z)
  : option (Z * Z * Z) :=
  let bs0 := Z.min min_block_size n_samples in
  if bs0 =? 0 then None
  else
    let bs := if Z.quot n_samples bs0 >? max_blocks then
                if max_blocks =? 0 then None
                else let b := Z.quot n_samples max_blocks in
                     Some (Z.min (Z.shiftl (Z.shiftr (b + 255) 8) 8) n_samples)
              else Some bs0 in
    match bs with
    | None => None
    | Some block_size =>
        if block_size =? 0 then None
        else
          let n_blocks := Z.quot n_samples block_size in
          let final := Z.rem n_samples block_size in
          if final >=? min_final then Some (n_blocks + 1, block_size, final)
          else let final := final + block_size in
               Some (n_blocks, if n_blocks =? 1 then final else block_size, final)
    end.

(** da_utils.cpp:194-195, the test applied to an element: isnan(x) || x == x + (T)1, in double *)
Definition bad_element (x : f64) : bool := is_nan x || f64_eq x (f64_add x (f64_of_Z 1)).
(** da_utils.cpp:178-218 in double; any order other than row major takes the second branch *)
Definition check_data (o : order) (n_rows n_cols : Z) (nul : bool) (X : Z -> f64) (ldx : Z)
  : da_status :=
  if (n_rows <? 1) || (n_cols <? 1) then st_invalid_array_dimension
  else if nul then st_invalid_pointer
  else match o with
       | row_major =>
           if ldx <? n_cols then st_invalid_leading_dimension
           else if existsb (fun i => existsb (fun j => bad_element (X (i * ldx + j)))
                                       (zrange n_cols)) (zrange n_rows)
                then st_invalid_input else st_success
       | _ =>
           if ldx <? n_rows then st_invalid_leading_dimension
           else if existsb (fun j => existsb (fun i => bad_element (X (i + j * ldx)))
                                       (zrange n_rows)) (zrange n_cols)
                then st_invalid_input else st_success
       end.

(** da_utils.cpp:539-563 *)
Definition check_1D_array (check : bool) (n : Z) (nul : bool) (X : Z -> f64) (n_min : Z)
  : da_status :=
  if nul then st_invalid_pointer
  else if n <? n_min then st_invalid_array_dimension
  else if check then
         match check_data column_major n 1 nul X n with
         | st_invalid_input => st_invalid_input
         | _ => st_success
         end
       else st_success.

(** The test of the leading dimension, da_utils.cpp:603-634 and basic_handle.cpp:166-197 *)
Definition check_ld (o : order) (n_rows n_cols ld : Z) : da_status :=
  match o with
  | column_major => if ld <? n_rows then st_invalid_leading_dimension else st_success
  | row_major => if ld <? n_cols then st_invalid_leading_dimension else st_success
  | other_order => st_internal_error
  end.

(** da_utils.cpp:570-638 *)
Definition check_2D_array (check : bool) (o : order) (n_rows n_cols : Z) (nul : bool)
  (X : Z -> f64) (ld n_rows_min n_cols_min : Z) : da_status :=
  if n_rows <? n_rows_min then st_invalid_array_dimension
  else if n_cols <? n_cols_min then st_invalid_array_dimension
  else if nul then st_invalid_pointer
  else
    let st := if check then check_data o n_rows n_cols nul X ld else st_success in
    match st with
    | st_invalid_input => st_invalid_input
    | _ => check_ld o n_rows n_cols ld
    end.

(** What [*data_internal] points to: left as it was, the caller's array, or a new array of
    [n_rows * n_cols] elements filled by the given parallel copies. *)
Inductive internal := IUnset | IUser | INew (size : Z) (iterations : list (list copy)).

(** basic_handle.cpp:108-232.  [option_order] is the "storage order" option, [None] for an
    auxiliary handle without options; [check] is the "check data" option.  Returns the status, the
    order of the handle, the internal array and its leading dimension.  Allocation succeeds. *)
Definition store_2D_array (handle_order : order) (option_order : option order) (check : bool)
  (n_rows n_cols : Z) (nul : bool) (data : Z -> f64) (ld mode n_rows_min n_cols_min : Z)
  : da_status * order * internal * Z :=
  if mode =? 2 then (st_success, handle_order, IUser, ld)
  else if n_rows <? n_rows_min then (st_invalid_array_dimension, handle_order, IUnset, 0)
  else if n_cols <? n_cols_min then (st_invalid_array_dimension, handle_order, IUnset, 0)
  else if nul then (st_invalid_pointer, handle_order, IUnset, 0)
  else
    let aux := match option_order with None => true | Some _ => false end in
    let o := match option_order with None => handle_order | Some x => x end in
    let st := if negb aux && ((mode =? 0) || (mode =? 3)) && check
              then check_data o n_rows n_cols nul data ld else st_success in
    match st with
    | st_invalid_input => (st_invalid_input, o, IUnset, 0)
    | _ =>
        match check_ld o n_rows n_cols ld with
        | st_success =>
            if mode =? 3 then (st_success, o, IUnset, 0)
            else match o with
                 | column_major => (st_success, o, IUser, ld)
                 | _ => (st_success, o,
                         INew (n_rows * n_cols)
                           (if mode =? 0 then row_to_column n_rows n_cols ld n_rows else []),
                         n_rows)
                 end
        | e => (e, o, IUnset, 0)
        end
    end.

(** basic_handle.cpp:235-251; the copies (destination in results_arr, source in data) *)
Definition copy_2D_results_array (o : order) (n_rows n_cols ld : Z) : list copy :=
  match o with
  | column_major =>
      flat_map (fun j => map (fun i => (i + j * n_rows, i + ld * j)) (zrange n_rows)) (zrange n_cols)
  | _ =>
      flat_map (fun i => map (fun j => (i * n_cols + j, i + ld * j)) (zrange n_cols)) (zrange n_rows)
  end.
