(** What the array utilities must achieve. *)
From Coq Require Import ZArith List Bool Reals.
From Flocq Require Import Core IEEE754.BinarySingleNaN.
From Verif Require Import Base Par F64 SplitModel SplitSpec UtilModel.
Import ListNotations.
Local Open Scope Z_scope.

(** The blocks [off b, off b + size b), b = 0 .. k-1, cut 0 .. n-1 into non-empty pieces: every
    sample is in exactly one of them. *)
Definition partitions (n k : Z) (off size : Z -> Z) : Prop :=
  (forall b, 0 <= b < k -> 0 < size b /\ 0 <= off b /\ off b + size b <= n) /\
  (forall s, 0 <= s < n -> exists! b, 0 <= b < k /\ off b <= s < off b + size b).

(** How the callers of the two blocking schemes lay out the blocks: block [b] starts at
    [b * block_size]; the remainder, if any (the last block size, always), is the size of the last. *)
Definition block_off (block_size b : Z) : Z := b * block_size.
Definition block_len (k block_size block_rem b : Z) : Z :=
  if (b =? k - 1) && (block_rem >? 0) then block_rem else block_size.
Definition tall_block_len (k block_size final b : Z) : Z :=
  if b =? k - 1 then final else block_size.

(** Some element of the matrix satisfies [P]. *)
Definition has_element {T} (o : order) (n_rows n_cols ld : Z) (X : Z -> T) (P : T -> Prop) : Prop :=
  exists r c, 0 <= r < n_rows /\ 0 <= c < n_cols /\ P (X (pos o ld r c)).
Definition nan_value (x : f64) : Prop := is_nan x = true.
(** The numbers below 2^53 in magnitude. *)
Definition moderate (x : f64) : Prop :=
  is_finite x = true /\ (Rabs (B2R x) < bpow radix2 53)%R.
Definition good_ld (o : order) (n_rows n_cols ld : Z) : Prop :=
  match o with row_major => n_cols <= ld | _ => n_rows <= ld end.

(** The values an algorithm reads through [*data_internal]; [tr] is the order in which the copies
    filling a new array took place. *)
Definition internal_values {T} (data junk : Z -> T) (i : internal) (tr : list copy) : Z -> T :=
  match i with INew _ _ => run_copies data junk tr | _ => data end.
Definition internal_schedule (i : internal) (tr : list copy) : Prop :=
  match i with INew _ its => interleaving its tr | _ => tr = [] end.
(** Leading dimension of a matrix stored without padding. *)
Definition dense_ld (o : order) (n_rows n_cols : Z) : Z :=
  match o with row_major => n_cols | _ => n_rows end.
