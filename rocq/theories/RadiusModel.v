(** Model of the brute force radius search (source/core/nearest_neighbors/radius_neighbors.cpp:47-209).

    The distances are given: [near i j] says whether the entry of the distance matrix for the samples [i]
    and [j] is at most the radius in use.  Integers do not overflow; memory is sufficient. *)
From Coq Require Import ZArith Reals List Bool.
From Flocq Require Import Core IEEE754.BinarySingleNaN.
From Verif Require Import Base Par F64 UtilModel.
Import ListNotations.
Local Open Scope Z_scope.

Definition f64_sqrt (x : f64) : f64 := Bsqrt mode_NE x.

(** ** Metric and radius in use, lines 66-72 *)
(** include/aoclda_metrics.h:44-56 *)
Inductive metric := euclidean | sqeuclidean | minkowski | manhattan | cosine | euclidean_gemm | sqeuclidean_gemm
  | inner_product.
Definition is_euclidean_gemm (m : metric) : bool := match m with euclidean_gemm => true | _ => false end.
Definition is_minkowski (m : metric) : bool := match m with minkowski => true | _ => false end.
(** [two]: whether the power p is 2; [sq]: the square of a number *)
Definition eps_internal {T} (sq : T -> T) (m : metric) (eps : T) : T :=
  if is_euclidean_gemm m then sq eps else eps.
Definition metric_internal (m : metric) (two : bool) : metric :=
  if is_euclidean_gemm m || (is_minkowski m && two) then sqeuclidean_gemm else m.

(** lines 163-169, in exact arithmetic: the comparison, on distances computed with the metric in use *)
Definition near_by (dist : metric -> Z -> Z -> R) (m : metric) (two : bool) (eps : R) (i j : Z) : bool :=
  if Rle_dec (dist (metric_internal m two) i j) (eps_internal (fun x => x * x)%R m eps) then true else false.

(** ** Blocks *)
(** lines 36, 52-56: the block size, the number of blocks and the size of the last one *)
Definition RADIUS_NEIGHBORS_BLOCK_SIZE : Z := 256.
Definition max_block_size (n : Z) : Z := Z.min RADIUS_NEIGHBORS_BLOCK_SIZE n.

(** lines 122-126: from the number of a block to its indices (block_i, block_j) *)
Definition block_indices (k : Z) : Z * Z :=
  let block_j := f64_trunc (f64_div (f64_sub (f64_sqrt (f64_of_Z (8 * k + 1))) (f64_of_Z 1)) (f64_of_Z 2)) in
  (k - Z.quot (block_j * (block_j + 1)) 2, block_j).

Section Search.
Variable n : Z.
Variable near : Z -> Z -> bool.

(** lines 130-139 *)
Definition block_length (n_blocks block_rem b : Z) : Z :=
  if (b =? n_blocks - 1) && (block_rem >? 0) then block_rem else max_block_size n.
(** lines 163-186: the pairs of samples found in block [k], in order *)
Definition block_pairs (n_blocks block_rem k : Z) : list (Z * Z) :=
  let '(block_i, block_j) := block_indices k in
  flat_map (fun jj =>
    let ii_max := if block_i =? block_j then jj else block_length n_blocks block_rem block_i - 1 in
    flat_map (fun ii =>
      let i := block_i * max_block_size n + ii in
      let j := block_j * max_block_size n + jj in
      if near i j && negb (i =? j) then [(i, j)] else [])
      (zrange (ii_max + 1)))
    (zrange (block_length n_blocks block_rem block_j)).

(** lines 171-177: the two push_back *)
Definition push (lists : Z -> list Z) (pair : Z * Z) : Z -> list Z :=
  let '(i, j) := pair in
  let lists := store_at lists i (lists i ++ [j]) in
  store_at lists j (lists j ++ [i]).
(** lines 119-190: the lists of one thread, which gets the blocks [ks] *)
Definition thread_lists (n_blocks block_rem : Z) (ks : list Z) : Z -> list Z :=
  fold_left (fun lists k => fold_left push (block_pairs n_blocks block_rem k) lists) ks (fun _ => []).

(** Lines 47-209.  [work]: the blocks each thread of the team gets, thread 0 first; [requested]: the number
    of threads asked for.  [None]: lines 200-203 use the lists of a thread that does not exist. *)
Definition radius_neighbors_brute (requested : Z) (work : list (list Z)) : option (Z -> list Z) :=
  match blocking_scheme n (max_block_size n) with
  | None => None
  | Some (n_blocks, block_rem) =>
      if Z.of_nat (length work) <? requested then None
      else Some (fun i => flat_map (fun ks => thread_lists n_blocks block_rem ks i) work)
  end.
(** line 121: the blocks to distribute *)
Definition all_blocks : list Z :=
  match blocking_scheme n (max_block_size n) with
  | None => []
  | Some (n_blocks, _) => zrange (Z.quot (n_blocks * (n_blocks + 1)) 2)
  end.
End Search.
