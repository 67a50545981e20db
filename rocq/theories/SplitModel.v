(** Model of da_train_test_split (source/core/utilities/train_test_split.cpp:33-130,
    train_test_split_internal.hpp:36-118).

    A copy loop is the list of its assignments: [mkWrite t d s] is [X_t[d] = X[s]].  Pointer
    arithmetic is kept as integer offsets from the start of the array.  X does not overlap the
    outputs.  Products of indices are unbounded (no 32-bit overflow); the sum
    [train_size + test_size] of the validation is modelled with its overflow. *)
From Coq Require Import ZArith List Bool.
From Verif Require Import Base Par.
Import ListNotations.
Local Open Scope Z_scope.

(** aoclda_types.h: da_order; the third case is any other value of the C enumeration. *)
Inductive order := row_major | column_major | other_order.
Inductive target := Train | Test.
Record write := mkWrite { wto : target; wdst : Z; wsrc : Z }.

(** The arguments; [nul_*] tell which pointers are null, [shuffle] is the index array if any. *)
Record args := mkArgs {
  ord : order; m : Z; n : Z; nulX : bool; ldx : Z; train : Z; test : Z;
  shuffle : option (Z -> Z); nulTrain : bool; ldtr : Z; nulTest : bool; ldte : Z }.

(** train_test_split.cpp:33-67, with da_int sums of width [bits]: [None] on overflow (undefined). *)
Definition fits (bits s : Z) : bool := (- 2 ^ (bits - 1) <=? s) && (s <? 2 ^ (bits - 1)).
Definition validate (bits : Z) (a : args) : option da_status :=
  if nulX a || nulTrain a || nulTest a then Some st_invalid_pointer
  else if (m a <? 2) || (n a <? 1) then Some st_invalid_array_dimension
  else if match ord a with
          | row_major => (ldx a <? n a) || (ldtr a <? n a) || (ldte a <? n a)
          | column_major => (ldx a <? m a) || (ldtr a <? train a) || (ldte a <? test a)
          | other_order => false
          end then Some st_invalid_leading_dimension
  else if (train a <? 1) || (test a <? 1) then Some st_invalid_input
  else if negb (fits bits (train a + test a)) then None
  else if train a + test a >? m a then Some st_invalid_input
  else Some st_success.

(** train_test_split_internal.hpp:39-52; [X + src], [split + dst] *)
Definition split_column_data (t : target) (size src dst : Z) (indices : option (Z -> Z))
  : list write :=
  match indices with
  | None => map (fun i => mkWrite t (dst + i) (src + i)) (zrange size)
  | Some f => map (fun i => mkWrite t (dst + i) (src + f i)) (zrange size)
  end.

(** train_test_split_internal.hpp:56-96 *)
Definition split_row_data_serial (a : args) : list write :=
  let small_split := Z.min (train a) (test a) in
  let big_split := Z.max (train a) (test a) in
  let '(rem, ld_rem, addon) :=
    if train a >? test a then (Train, ldtr a, 0) else (Test, ldte a, train a) in
  let row i := match shuffle a with None => i | Some f => f i end in
  flat_map (fun i =>
      let i_ldx := row i * ldx a in
      let i_ldx_test_train := row (i + train a) * ldx a in
      flat_map (fun j => [mkWrite Train (i * ldtr a + j) (i_ldx + j);
                          mkWrite Test (i * ldte a + j) (i_ldx_test_train + j)]) (zrange (n a)))
    (zrange small_split)
  ++ flat_map (fun k =>
      let i := small_split + k in
      let i_ldx := row (i + addon) * ldx a in
      map (fun j => mkWrite rem (i * ld_rem + j) (i_ldx + j)) (zrange (n a)))
    (zrange (big_split - small_split)).

(** train_test_split_internal.hpp:99-116, one list per iteration of the parallel loop;
    [src] is the offset of the pointer X passed. *)
Definition split_row_data_parallel (a : args) (t : target) (split_size src ld_split : Z)
  (indices : option (Z -> Z)) : list (list write) :=
  map (fun i =>
         let x := match indices with None => src + i * ldx a | Some f => src + f i * ldx a end in
         map (fun j => mkWrite t (ld_split * i + j) (x + j)) (zrange (n a)))
      (zrange split_size).

(** train_test_split.cpp:69-119: the status and the successive parallel regions. *)
Definition train_test_split (bits num_threads : Z) (a : args)
  : option (da_status * list (list (list write))) :=
  match validate bits a with
  | None => None
  | Some st_success =>
      let test_indices := match shuffle a with Some f => Some (fun i => f (train a + i)) | None => None end in
      Some (st_success,
            match ord a with
            | row_major =>
                if num_threads >? 1 then
                  [split_row_data_parallel a Train (train a) 0 (ldtr a) (shuffle a);
                   split_row_data_parallel a Test (test a)
                     (match test_indices with None => train a * ldx a | Some _ => 0 end)
                     (ldte a) test_indices]
                else [[split_row_data_serial a]]
            | column_major =>
                let x_ptr := match shuffle a with None => train a | Some _ => 0 end in
                [map (fun i =>
                        split_column_data Train (train a) (ldx a * i) (ldtr a * i) (shuffle a)
                        ++ split_column_data Test (test a) (x_ptr + ldx a * i) (ldte a * i)
                             test_indices)
                     (zrange (n a))]
            | other_order => []
            end)
  | Some s => Some (s, [])
  end.

(** Memory of the two outputs; running assignments in order. *)
Definition assign {T} (X : Z -> T) (mem : target -> Z -> T) (w : write) : target -> Z -> T :=
  fun t d => match t, wto w with
             | Train, Train | Test, Test => if d =? wdst w then X (wsrc w) else mem t d
             | _, _ => mem t d
             end.
Definition execute {T} (X : Z -> T) (mem : target -> Z -> T) (tr : list write) :=
  fold_left (assign X) tr mem.
