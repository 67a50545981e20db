(** Theorems about the sorting of samples (C34). *)
From Coq Require Import ZArith List Bool Lia Permutation.
From Flocq Require Import Core IEEE754.BinarySingleNaN.
From Verif Require Import Base Par F64 UtilModel SortModel SortSpec SortProofs SortMoreProofs FloatOrder.
Import ListNotations.
Local Open Scope Z_scope.

(** C34.  For every array of doubles, every range inside it and every depth limit, the sort ends without
    an access outside the vectors, rearranges the pairs of index and value within the range, leaves the
    others alone, and the values are in non-decreasing order if there is no NaN in the range. *)
Theorem intro_sort_correct : forall len (a : Z -> Z * f64) start n depth,
  0 <= start -> 0 <= n -> start + n <= len ->
  exists b, multi_range_intro_sort f64 f64_lt len a start n depth = Some b /\ rearranged start n a b /\
    (range_all (fun x => is_nan x = false) start n a -> ordered f64_lt start n b).
Proof.
  intros len a start n depth S N L.
  destruct (intro_sort_ok f64 f64_lt len f64_lt_irrefl (Z.to_nat n) true a start n depth S L N ltac:(lia))
    as (b & E & R & O).
  exists b. split; [exact E|]. split; [exact R|]. exact (O _ f64_orders).
Qed.
Print Assumptions intro_sort_correct.

(** The heap sort alone. *)
Theorem heap_sort_correct : forall len (a : Z -> Z * f64) start n,
  0 <= start -> 1 <= n -> start + n <= len ->
  exists b, multi_range_heap_sort f64 f64_lt len a start n = Some b /\ rearranged start n a b /\
    (range_all (fun x => is_nan x = false) start n a -> ordered f64_lt start n b).
Proof.
  intros len a start n S N L. destruct (heap_sort_ok f64 f64_lt len a start n S L N) as (b & E & R & O).
  exists b. split; [exact E|]. split; [exact R|]. exact (O _ f64_orders).
Qed.
Print Assumptions heap_sort_correct.

(** For values of any type with a comparison that is irreflexive and orders them. *)
Theorem intro_sort_correct_generic : forall V (lt : V -> V -> bool) len a start n depth,
  (forall x, lt x x = false) -> 0 <= start -> 0 <= n -> start + n <= len ->
  exists b, multi_range_intro_sort V lt len a start n depth = Some b /\ rearranged start n a b /\
    forall P, orders lt P -> range_all P start n a -> ordered lt start n b.
Proof.
  intros V lt len a start n depth I S N L.
  exact (intro_sort_ok V lt len I (Z.to_nat n) true a start n depth S L N ltac:(lia)).
Qed.
Print Assumptions intro_sort_correct_generic.

Section Examples.
Let vals : list Z := [5; 3; 9; 1; 3; 8; 2; 7; 3; 6; 4; 0].
Let a (i : Z) : Z * Z := (100 + i, nth (Z.to_nat i) vals 0).
Let show (r : option (Z -> Z * Z)) := match r with Some b => map b (zrange 12) | None => [] end.

Example sort_case :
  show (multi_range_intro_sort Z Z.ltb 12 a 1 9 8) =
    [(100, 5); (103, 1); (106, 2); (104, 3); (108, 3); (101, 3); (109, 6); (107, 7); (105, 8); (102, 9); (110, 4); (111, 0)] /\
  show (multi_range_intro_sort Z Z.ltb 12 a 1 9 0) =
    [(100, 5); (103, 1); (106, 2); (108, 3); (101, 3); (104, 3); (109, 6); (107, 7); (105, 8); (102, 9); (110, 4); (111, 0)] /\
  multi_range_intro_sort Z Z.ltb 12 a 5 8 8 = None.
Proof. split; [|split]; vm_compute; reflexivity. Qed.
End Examples.

(** The bucket sort puts the samples in the order of their categories, keeps the order within a category
    and stays inside its arrays. *)
Theorem bucket_sort_correct : forall V len (round : V -> Z) (of_int : Z -> V) n_cat ldbuck nb a start n buckets,
  0 <= n_cat -> n_cat * ldbuck <= nb -> 0 <= start -> 0 <= n -> start + n <= len -> n <= ldbuck ->
  (forall i, start <= i < start + n -> 0 <= round (snd (a i)) < n_cat) ->
  exists b, bucket_sort_samples V len round of_int n_cat ldbuck nb a start n buckets = Some b /\
    slice b start n = by_category round of_int n_cat (slice a start n) /\
    forall i, ~ start <= i < start + n -> b i = a i.
Proof. intros. now apply bucket_sort_ok. Qed.
Print Assumptions bucket_sort_correct.

Example bucket_sort_case :
  let a i := (100 + i, nth (Z.to_nat i) [2; 0; 1; 2; 0; 0; 1] 0) in
  match bucket_sort_samples Z 7 (fun x => x) (fun x => x) 3 7 21 a 1 5 (fun _ => 0) with
  | Some b => map b (zrange 7) | None => [] end =
  [(100, 2); (101, 0); (104, 0); (105, 0); (102, 1); (103, 2); (106, 1)].
Proof. vm_compute. reflexivity. Qed.

(** The sample indices of a bootstrap sample are compressed into the distinct ones in increasing order,
    with the number of occurrences of each. *)
Theorem compress_count_correct : forall sort n m f,
  sorts sort -> 0 <= n -> (forall i, 0 <= i < n -> 0 <= f i < m) ->
  exists idx cnt k, compress_count_occurences sort n m f = Some (idx, cnt, k) /\ increasing idx k /\ 0 <= k <= n /\
    (forall v, (exists i, 0 <= i < n /\ f i = v) <-> (exists i, 0 <= i < k /\ idx i = v)) /\
    (forall v, cnt v = Z.of_nat (count_occ Z.eq_dec (slice f 0 n) v)).
Proof. exact compress_count_ok. Qed.
Print Assumptions compress_count_correct.

Example compress_case :
  let sort (f : Z -> Z) n i := nth (Z.to_nat i) [0; 2; 2; 5; 5; 5] 0 in
  match compress_count_occurences sort 6 6 (fun i => nth (Z.to_nat i) [5; 2; 5; 0; 2; 5] 0) with
  | Some (idx, cnt, k) => (map idx (zrange k), map cnt (zrange 6))
  | None => ([], [])
  end = ([0; 2; 5], [1; 0; 2; 0; 0; 3]).
Proof. vm_compute. reflexivity. Qed.
