(** Model of the sorting of samples for decision trees
    (source/core/decision_forest/common/idx_sorting.cpp).

    The vectors [indices] and [values], which are always changed together, are one array of pairs, given as
    a function on positions.  Both have [len] elements; an access outside them yields [None], and so does a
    loop that needs more than its [fuel] rounds.  Integers do not overflow. *)
From Coq Require Import ZArith List Bool.
From Verif Require Import Base Par UtilModel.
Import ListNotations.
Local Open Scope Z_scope.

Definition bind {A B} (x : option A) (f : A -> option B) : option B :=
  match x with Some a => f a | None => None end.

Section Sort.
Variable V : Type.
(** the comparison x < y of two values *)
Variable lt : V -> V -> bool.
Variable len : Z.

Definition array := Z -> Z * V.
Definition inside (i : Z) : bool := (0 <=? i) && (i <? len).
Definition value (a : array) (i : Z) : option V := if inside i then Some (snd (a i)) else None.

(** lines 67-80 *)
Definition median3 (v1 v2 v3 : V) : V :=
  if lt v1 v2 then (if lt v2 v3 then v2 else if lt v1 v3 then v3 else v1)
  else (if lt v1 v3 then v1 else if lt v2 v3 then v3 else v2).
Definition pivot_median3 (a : array) (start n : Z) : option V :=
  bind (value a start) (fun v1 =>
  bind (value a (start + Z.quot n 2)) (fun v2 =>
  bind (value a (start + n - 1)) (fun v3 => Some (median3 v1 v2 v3)))).

(** lines 82-87 *)
Definition swap (a : array) (i j : Z) : option array :=
  if inside i && inside j then Some (store_at (store_at a i (a j)) j (a i)) else None.

(** lines 99-103: the larger of the element [m] and the child [c], if [c] is within the heap *)
Definition larger (a : array) (start n m c : Z) : option Z :=
  if c - start <=? n - 1 then
    bind (value a m) (fun x => bind (value a c) (fun y => Some (if lt x y then c else m)))
  else Some m.
(** lines 89-110 *)
Fixpoint heapify (fuel : nat) (a : array) (start n root : Z) : option array :=
  match fuel with
  | O => None
  | S fuel' =>
      let left := root * 2 + 1 + start in
      let right := left + 1 in
      bind (larger a start n (root + start) left) (fun m =>
      bind (larger a start n m right) (fun m =>
        if m =? root + start then Some a
        else bind (swap a (root + start) m) (fun a => heapify fuel' a start n (m - start))))
  end.
Definition multi_range_heapify (a : array) (start n root : Z) : option array :=
  heapify (Z.to_nat (n + 1)) a start n root.

(** lines 117-120, for i = k - 1, ..., 0 *)
Fixpoint build_heap (k : nat) (a : array) (start n : Z) : option array :=
  match k with
  | O => Some a
  | S k' => bind (multi_range_heapify a start n (Z.of_nat k')) (fun a => build_heap k' a start n)
  end.
(** lines 122-128, for n_unsorted = k, ..., 1 *)
Fixpoint take_maxima (k : nat) (a : array) (start : Z) : option array :=
  match k with
  | O => Some a
  | S k' =>
      bind (swap a start (start + Z.of_nat k)) (fun a =>
      bind (multi_range_heapify a start (Z.of_nat k) 0) (fun a => take_maxima k' a start))
  end.
(** lines 112-129 *)
Definition multi_range_heap_sort (a : array) (start n : Z) : option array :=
  bind (build_heap (Z.to_nat (Z.quot n 2)) a start n) (fun a => take_maxima (Z.to_nat (n - 1)) a start).

(** lines 151-167; the result is the array, [pivot_idx] and [right] *)
Fixpoint partition (fuel : nat) (a : array) (pivot : V) (left right pivot_idx : Z) : option (array * Z * Z) :=
  match fuel with
  | O => None
  | S fuel' =>
      if left <? right then
        bind (value a left) (fun v =>
          if lt v pivot then
            bind (swap a left pivot_idx) (fun a => partition fuel' a pivot (left + 1) right (pivot_idx + 1))
          else if lt pivot v then
            bind (swap a (right - 1) left) (fun a => partition fuel' a pivot left (right - 1) pivot_idx)
          else partition fuel' a pivot (left + 1) right pivot_idx)
      else Some (a, pivot_idx, right)
  end.

(** Lines 131-177.  [entry]: whether the function is entered, or its loop (lines 145-176) continued. *)
Fixpoint intro_sort (fuel : nat) (entry : bool) (a : array) (start n depth : Z) : option array :=
  if n <=? 1 then Some a
  else if entry && (depth <=? 0) then multi_range_heap_sort a start n
  else match fuel with
       | O => None
       | S fuel' =>
           bind (pivot_median3 a start n) (fun pivot =>
           bind (partition (Z.to_nat (n + 1)) a pivot start (start + n) start) (fun '(a, pivot_idx, rest) =>
           bind (intro_sort fuel' true a start (pivot_idx - start) (depth - 1)) (fun a =>
             intro_sort fuel' false a rest (n - (rest - start)) (depth - 1))))
       end.
Definition multi_range_intro_sort (a : array) (start n depth : Z) : option array :=
  intro_sort (Z.to_nat n) true a start n depth.

(** ** bucket_sort_samples, lines 179-200 *)
(** std::round, and the conversion of an integer to a value *)
Variable round : V -> Z.
Variable of_int : Z -> V.
(** lines 185-190; [nb] is the size of [buckets], [n_cat] that of [bucket_idx]; [i] runs over [is] *)
Fixpoint fill_buckets (n_cat ldbuck nb : Z) (is : list Z) (a : array) (buckets bucket_idx : Z -> Z)
  : option ((Z -> Z) * (Z -> Z)) :=
  match is with
  | [] => Some (buckets, bucket_idx)
  | i :: is' =>
      bind (value a i) (fun v =>
        let x := round v in
        if (0 <=? x) && (x <? n_cat) then
          let p := ldbuck * x + bucket_idx x in
          if (0 <=? p) && (p <? nb) then
            fill_buckets n_cat ldbuck nb is' a (store_at buckets p (fst (a i)))
              (store_at bucket_idx x (bucket_idx x + 1))
          else None
        else None)
  end.
(** lines 192-199, for the buckets [bs]; the copies are modelled as a whole *)
Fixpoint read_buckets (ldbuck nb : Z) (bs : list Z) (a : array) (buckets bucket_idx : Z -> Z) (s : Z)
  : option array :=
  match bs with
  | [] => Some a
  | b :: bs' =>
      let k := bucket_idx b in
      if (0 <=? s) && (s + k <=? len) && (0 <=? b * ldbuck) && (b * ldbuck + k <=? nb) then
        let a' i := if (s <=? i) && (i <? s + k) then (buckets (b * ldbuck + (i - s)), of_int b) else a i in
        read_buckets ldbuck nb bs' a' buckets bucket_idx (s + k)
      else None
  end.
Definition bucket_sort_samples (n_cat ldbuck nb : Z) (a : array) (start n : Z) (buckets : Z -> Z)
  : option array :=
  bind (fill_buckets n_cat ldbuck nb (map (fun i => start + i) (zrange n)) a buckets (fun _ => 0))
    (fun '(buckets, bucket_idx) => read_buckets ldbuck nb (zrange n_cat) a buckets bucket_idx start).
End Sort.

(** ** compress_count_occurences, lines 39-64 *)
(** lines 49-51: the position after the elements equal to [val]; [n] is the size of [indices] *)
Fixpoint end_of_run (fuel : nat) (indices : Z -> Z) (n head val : Z) : option Z :=
  match fuel with
  | O => None
  | S fuel' =>
      let head := head + 1 in
      if (head <? n) && (indices head =? val) then end_of_run fuel' indices n head val else Some head
  end.
(** lines 46-55; [m] is the size of [count] *)
Fixpoint compress (fuel : nat) (n m : Z) (indices count : Z -> Z) (head unique : Z)
  : option ((Z -> Z) * (Z -> Z) * Z) :=
  match fuel with
  | O => None
  | S fuel' =>
      if head <? n then
        let val := indices head in
        bind (end_of_run (Z.to_nat n) indices n head val) (fun head' =>
          if (0 <=? val) && (val <? m) then
            compress fuel' n m (store_at indices unique val) (store_at count val (head' - head)) head' (unique + 1)
          else None)
      else Some (indices, count, unique)
  end.
(** The vector [indices] after [sort] (std::sort) of its [n] elements, then the loop; the result is the
    array, the counts and the new size. *)
Definition compress_count_occurences (sort : (Z -> Z) -> Z -> Z -> Z) (n m : Z) (indices : Z -> Z)
  : option ((Z -> Z) * (Z -> Z) * Z) :=
  compress (Z.to_nat (n + 1)) n m (sort indices n) (fun _ => 0) 0 0.
