(** Theorems about random shuffling (C16, C54, C55). *)
From Coq Require Import ZArith List Bool Permutation.
From Verif Require Import Base Par F64 ShuffleModel ShuffleSpec ShuffleProofs ShuffleMainProofs
  ShuffleFairProofs.
Import ListNotations.
Local Open Scope Z_scope.

(** C16, without classes: for every stream of random numbers the first m cells hold a permutation of
    0..m-1 and the rest of the array is as it was. *)
Theorem shuffled_indices_are_a_permutation : forall draw, uniform draw ->
  forall m seed train test arr,
  1 < m -> -1 <= seed -> m <= Z.of_nat (length arr) ->
  exists l, get_shuffled_indices draw m seed train test None (Some arr)
    = Some (st_success, Some (map Some l ++ skipn (Z.to_nat m) arr)) /\
    Permutation (zrange m) l.
Proof. exact plain_shuffle. Qed.
Print Assumptions shuffled_indices_are_a_permutation.

Definition ex_draw (k b : nat) : nat := Nat.modulo (7 * k + 3) (S b).
Example shuffled_case :
  get_shuffled_indices ex_draw 6 42 0 0 None (Some (repeat None 7))
  = Some (st_success, Some [Some 2; Some 5; Some 4; Some 1; Some 0; Some 3; None]).
Proof. reflexivity. Qed.

(** C16, with classes: a success gives distinct indices in range, and every class its share, to
    within one sample; an error leaves the array alone.  Missing: more than 2^25 samples, where
    the rounding errors of the proportions may exceed one sample's share. *)
Theorem stratified_indices_partial : forall draw, uniform draw ->
  forall m train test classes arr k st arr',
  m = Z.of_nat (length classes) -> m <= 2 ^ 25 -> train + test <= Z.of_nat (length arr) ->
  stratified_shuffle draw m train test classes arr k = Some (st, arr') ->
  (st = st_success /\ exists tr te,
     arr' = map Some tr ++ map Some te ++ skipn (Z.to_nat (train + test)) arr /\
     stratified m train test classes tr te) \/
  (st = st_invalid_input /\ arr' = arr).
Proof. exact stratified_correct. Qed.
Print Assumptions stratified_indices_partial.

(** ... and no access lies outside an array. *)
Theorem stratified_shuffle_in_bounds_partial : forall draw, uniform draw ->
  forall m train test classes arr k,
  m = Z.of_nat (length classes) -> m <= 2 ^ 25 -> train + test <= Z.of_nat (length arr) ->
  stratified_shuffle draw m train test classes arr k <> None.
Proof. exact stratified_defined. Qed.
Print Assumptions stratified_shuffle_in_bounds_partial.

(** Three classes of 5, 3 and 2 samples, split 6 + 3. *)
Example stratified_case :
  stratified_shuffle ex_draw 10 6 3 [7; 7; 9; 8; 7; 8; 7; 9; 8; 7] (repeat None 9) 0
  = Some (st_success, map Some [4; 3; 9; 5; 6; 7; 0; 2; 8]) /\
  members [7; 7; 9; 8; 7; 8; 7; 9; 8; 7] 7 [4; 3; 9; 5; 6; 7] = 3 /\
  members [7; 7; 9; 8; 7; 8; 7; 9; 8; 7] 8 [4; 3; 9; 5; 6; 7] = 2 /\
  members [7; 7; 9; 8; 7; 8; 7; 9; 8; 7] 9 [4; 3; 9; 5; 6; 7] = 1.
Proof. vm_compute. repeat split. Qed.

(** C54.  Sampling without replacement returns as many elements as asked for (or all of them), in
    their original order, each position at most once, and never reads past the end. *)
Theorem sample_without_replacement : forall draw, uniform draw ->
  forall (A : Type) (pop : list A) n k,
  exists out k', sample draw pop n k = Some (out, k') /\
    length out = Nat.min n (length pop) /\ subseq out pop.
Proof. exact @sample_ok. Qed.
Print Assumptions sample_without_replacement.

Example sample_case :
  option_map fst (sample ex_draw [10; 20; 30; 40; 50] 3 0) = Some [20; 40; 50] /\
  option_map fst (sample ex_draw [10; 20; 30] 5 0) = Some [10; 20; 30].
Proof. split; reflexivity. Qed.

(** C55.  A shuffle is unbiased: each arrangement of the elements is the outcome of exactly one of
    the sequences of draws, so equally likely sequences give equally likely arrangements. *)
Theorem shuffle_is_unbiased : forall (A : Type) (l p : list A), NoDup l -> Permutation l p ->
  exists ds, (possible_draws (length l) ds /\ exists k, shuffle (recorded ds) l 0 = Some (p, k)) /\
    forall ds', possible_draws (length l) ds' ->
      (exists k, shuffle (recorded ds') l 0 = Some (p, k)) -> ds' = ds.
Proof. exact @shuffle_fair. Qed.
Print Assumptions shuffle_is_unbiased.

Example shuffle_unbiased_case :
  map (fun ds => option_map fst (shuffle (recorded ds) [1; 2; 3] 0))
    [[0; 0]; [0; 1]; [1; 0]; [1; 1]; [2; 0]; [2; 1]]%nat
  = map Some [[2; 3; 1]; [3; 2; 1]; [3; 1; 2]; [1; 3; 2]; [2; 1; 3]; [1; 2; 3]].
Proof. reflexivity. Qed.
