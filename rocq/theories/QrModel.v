(** Model of the blocking and of the array indices of the tall QR factorisation
    (source/core/utilities/da_qr.hpp:106-298).  geqrf / geqrt3 are external: on a block of [s] rows
    and [n] columns geqrf writes min(s, n) values of tau.  da_int is unbounded: the product
    [3 * (n_threads - 1) * m] does not overflow.  The hidden setting "pca.qr_block_size_override"
    is not set. *)
From Coq Require Import ZArith List Bool.
From Verif Require Import Base Par UtilModel.
Import ListNotations.
Local Open Scope Z_scope.

(** da_qr.hpp:98-99 *)
Definition QR_MAX_NUM_BLOCKS : Z := 256.
Definition QR_MIN_BLOCK_SIZE : Z := 1024.
(** da_qr.hpp:130-135; [None]: division by zero *)
Definition qr_max_blocks (n_threads m n : Z) : option Z :=
  if (3 * n_threads - 1) * n =? 0 then None
  else Some (Z.min (Z.max (Z.min QR_MAX_NUM_BLOCKS
               (Z.quot (3 * (n_threads - 1) * m) ((3 * n_threads - 1) * n))) 1) n_threads).
(** da_qr.hpp:150-157: block count, block size, last block size *)
Definition qr_blocks (n_threads m n : Z) : option (Z * Z * Z) :=
  match qr_max_blocks n_threads m n with
  | None => None
  | Some max_blocks =>
      if max_blocks =? 1 then Some (1, m, m)
      else tall_skinny_blocking_scheme m QR_MIN_BLOCK_SIZE max_blocks n
  end.
(** da_qr.hpp:172 *)
Definition qr_tau_size (n_blocks block_size final n : Z) : Z :=
  (n_blocks - 1) * Z.min block_size n + Z.min final n.
(** da_qr.hpp:249-251 *)
Definition qr_this_block (n_blocks block_size final i : Z) : Z :=
  if i =? n_blocks - 1 then final else block_size.
(** da_qr.hpp:254: the positions of tau written for block [i]: from [fst] up to [snd] excluded *)
Definition qr_tau_range (n_blocks block_size final n i : Z) : Z * Z :=
  (i * n, i * n + Z.min (qr_this_block n_blocks block_size final i) n).
(** da_qr.hpp:264-271: the (row of A, row of R_blocked, column) copied for block [i] *)
Definition qr_copies (block_size n i : Z) : list (Z * Z * Z) :=
  flat_map (fun j => map (fun k => (i * block_size + k, i * n + k, j)) (zrange (j + 1))) (zrange n).
