(** Predictions from neighbours and results of a radius search: the theorems. *)
From Coq Require Import ZArith List Bool Reals Permutation Sorted Lia Lra.
From Flocq Require Import Core BinarySingleNaN.
From Verif Require Import Base Par F64 FloatOrder UtilModel NnModel NnSpec NnProofs NnPredictModel NnPredictSpec NnPredictProofs
  NnRadiusProofs.
Import ListNotations.
Local Open Scope Z_scope.

(** C77.  Uniform weights: the label predicted from given neighbours is the one most of them have, and the smallest of
    these if several have as many; the rounding of the probabilities cannot change this. *)
Theorem knn_label_is_majority : forall (y : list Z) (nb : list (Z * f64)), among y nb -> countable nb ->
  exists h l, predict_knn (set_labels new_labelled y) Uniform nb = Some (h, l) /\ majority y nb l.
Proof. exact majority_ok. Qed.
Print Assumptions knn_label_is_majority.

(** C77.  The whole classifier with brute force: for at most as many neighbours as samples, the label is the majority among
    [k] nearest samples, for every schedule of the threads.  Missing: more neighbours than samples, see below. *)
Theorem knn_classifier_partial : forall pw (y : list Z) (v k : nat) (D : Z -> f64) (max_block : Z) (threads : list (list Z)) (n_blocks rem : Z),
  (0 < k)%nat -> Z.of_nat k <= Z.of_nat (length y) -> Z.of_nat k <= 2 ^ 50 ->
  0 < max_block -> (forall i, 0 <= i < Z.of_nat (length y) -> is_nan (D i) = false) ->
  blocking_scheme (Z.of_nat (length y)) (Z.min max_block (Z.of_nat (length y))) = Some (n_blocks, rem) ->
  Permutation (concat threads) (zrange n_blocks) ->
  let nb := predict_neighbours v k D (Z.of_nat (length y)) max_block threads pw in
  k_smallest key k (map (fun i => (i, D i)) (zrange (Z.of_nat (length y)))) nb /\
  exists h l, predict_knn (set_labels new_labelled y) Uniform nb = Some (h, l) /\ majority y nb l.
Proof. exact classifier_ok. Qed.
Print Assumptions knn_classifier_partial.

(** C77, refuted: predict does not compare the option "number of neighbors" (5 by default) with the number of samples; the
    places that stay empty count as the first sample at the distance 0.  Three samples with the labels 0, 1, 1: label 0. *)
Theorem knn_more_neighbours_than_samples_refuted :
  let y := [0; 1; 1] in
  let nb := predict_neighbours 8 5 (fun i => f64_of_Z (i + 1)) 3 2048 [[0]] pow_2 in
  map fst nb = [0; 0; 0; 1; 2] /\ option_map snd (predict_knn (set_labels new_labelled y) Uniform nb) = Some 0 /\
  majority y (map (fun i => (i, f64_of_Z (i + 1))) (zrange 3)) 1.
Proof.
  cbv zeta. split; [vm_compute; reflexivity|]. split; [vm_compute; reflexivity|]. split; [vm_compute; reflexivity|].
  assert (E : forall l, votes_for [0; 1; 1] (map (fun i => (i, f64_of_Z (i + 1))) (zrange 3)) l =
    (if 0 =? l then 1 else 0) + (if 1 =? l then 2 else 0)).
  { intros l. unfold votes_for. change (zrange 3) with [0; 1; 2]. cbn [map filter fst].
    change (nth (Z.to_nat 0) [0; 1; 1] 0) with 0. change (nth (Z.to_nat 1) [0; 1; 1] 0) with 1.
    change (nth (Z.to_nat 2) [0; 1; 1] 0) with 1. destruct (0 =? l), (1 =? l); reflexivity. }
  intros l'. rewrite !E. change (0 =? 1) with false. change (1 =? 1) with true. cbv iota.
  destruct (Z.eqb_spec 0 l'), (Z.eqb_spec 1 l'); lia.
Qed.
Print Assumptions knn_more_neighbours_than_samples_refuted.

(** C77, refuted: labels given a second time are voted on by the classes of the first time. *)
Theorem knn_new_labels_refuted :
  let nb := [(0, f64_of_Z 1); (1, f64_of_Z 1); (2, f64_of_Z 1)] in
  exists h, predict_knn (set_labels new_labelled [0; 1; 1]) Uniform nb = Some (h, 1) /\
    option_map snd (predict_knn (set_labels h [7; 7; 7]) Uniform nb) = Some 0.
Proof. cbv zeta. apply run_then; vm_compute; reflexivity. Qed.
Print Assumptions knn_new_labels_refuted.

Example knn_case : let y := [4; -2; 4; 9; 9] in
  let nb := [(3, f64_of_Z 1); (0, f64_of_Z 2); (2, f64_of_Z 2); (4, f64_of_Z 5)] in
  among y nb /\ countable nb /\ option_map snd (predict_knn (set_labels new_labelled y) Uniform nb) = Some 4.
Proof. cbv zeta. split; [repeat constructor; cbn; lia|]. split; [vm_compute; split; [reflexivity|discriminate]|vm_compute; reflexivity]. Qed.
Example knn_classifier_case :
  let D := fun i => f64_of_Z (Z.abs (3 - i)) in let y := [4; -2; 4; 9; 9] in
  let nb := predict_neighbours 8 3 D 5 2 [[1]; [2; 0]] pow_2 in
  blocking_scheme 5 (Z.min 2 5) = Some (3, 1) /\ map fst nb = [3; 2; 4] /\
  option_map snd (predict_knn (set_labels new_labelled y) Uniform nb) = Some 9.
Proof. cbv zeta. repeat split; vm_compute; reflexivity. Qed.

(** C79.  The probabilities are finite and between 0 and 1, a class without a vote has the probability 0, for both weights. *)
Theorem knn_probabilities : forall (w : weighting) (y : list Z) (nb : list (Z * f64)), among y nb -> countable nb ->
  Forall (fun e => is_finite (snd e) = true) nb ->
  exists row, proba_knn (set_labels new_labelled y) w nb = Some row /\
    Forall2 (fun c x => exists r, is x r /\ (0 <= r <= 1)%R /\ (votes_for y nb c = 0 -> r = 0%R)) (available_classes y) row.
Proof. exact probability_ok. Qed.
Print Assumptions knn_probabilities.
(** C79.  Uniform weights: the probability of a class is the quotient of the votes, rounded once. *)
Theorem knn_uniform_probabilities : forall (y : list Z) (nb : list (Z * f64)), among y nb -> countable nb ->
  exists row, proba_knn (set_labels new_labelled y) Uniform nb = Some row /\
    Forall2 (fun c x => is x (rnd (IZR (votes_for y nb c) / IZR (Z.of_nat (length nb))))) (available_classes y) row.
Proof. exact majority_proba. Qed.
Print Assumptions knn_uniform_probabilities.
(** The classes are the labels in ascending order. *)
Theorem classes_are_the_labels : forall y : list Z, StronglySorted Z.lt (available_classes y) /\ forall v, In v (available_classes y) <-> In v y.
Proof. intros y. split; [apply classes_sorted|apply classes_in]. Qed.
Print Assumptions classes_are_the_labels.
Example probabilities_case :
  option_map (map (fun x => f64_eq x (f64_of_Z 0))) (proba_knn (set_labels new_labelled [4; -2; 4; 9]) ByDistance
    [(3, f64_of_Z 1); (0, f64_of_Z 2)]) = Some [true; false; false].
Proof. vm_compute. reflexivity. Qed.

(** C78, refuted: with weights by distance a neighbour at the distance 0 counts 1, one at the distance 1/10 counts 10.  The
    label of the training sample that equals the query is outvoted by a single other neighbour. *)
Theorem nearer_weighs_more_refuted :
  let tenth := f64_div (f64_of_Z 1) (f64_of_Z 10) in
  f64_lt (f64_of_Z 0) tenth = true /\ f64_lt (distance_weight (f64_of_Z 0)) (distance_weight tenth) = true /\
  option_map snd (predict_knn (set_labels new_labelled [5; 8]) ByDistance [(0, f64_of_Z 0); (1, tenth)]) = Some 8.
Proof. vm_compute. repeat split; reflexivity. Qed.
Print Assumptions nearer_weighs_more_refuted.
(** C78, what holds: above the machine precision a nearer neighbour does not weigh less; every weight is positive and finite.
    Missing: distances up to the machine precision. *)
Theorem nearer_weighs_more_partial : forall d1 d2 : f64, is_finite d1 = true -> is_finite d2 = true ->
  (bpow radix2 (-52) < B2R d1)%R -> (B2R d1 <= B2R d2)%R -> (B2R (distance_weight d2) <= B2R (distance_weight d1))%R.
Proof. exact weight_mono. Qed.
Print Assumptions nearer_weighs_more_partial.
Theorem weights_positive : forall d : f64, is_finite d = true -> exists r, is (distance_weight d) r /\ (0 < r <= bpow radix2 52)%R.
Proof. exact weight_range. Qed.
Print Assumptions weights_positive.
Example weights_case : f64_lt (distance_weight (f64_of_Z 3)) (distance_weight (f64_of_Z 2)) = true.
Proof. vm_compute. reflexivity. Qed.

(** C80.  Radius search, no handling of queries without neighbours: an error if there is one, the majorities otherwise. *)
Theorem radius_predict_none : forall (y : list Z) (nbs : list (list (Z * f64))),
  Forall (fun nb => nb = [] \/ (among y nb /\ countable nb)) nbs ->
  let r := radius_predict (set_labels new_labelled y) Uniform ONone nbs in
  (Exists (fun nb => nb = []) nbs -> r = Some None) /\
  (~ Exists (fun nb => nb = []) nbs -> exists ls, r = Some (Some ls) /\ Forall2 (majority y) nbs ls).
Proof. exact none_ok. Qed.
Print Assumptions radius_predict_none.
(** C80.  "most frequent": queries without neighbours get the most frequent label, the smallest of several. *)
Theorem radius_predict_most_frequent : forall (y : list Z) (nbs : list (list (Z * f64))), y <> [] ->
  Forall (fun nb => nb = [] \/ (among y nb /\ countable nb)) nbs ->
  exists ls other, radius_predict (set_labels new_labelled y) Uniform OMostFrequent nbs = Some (Some ls) /\ most_frequent y other /\
    Forall2 (radius_label_ok y other) nbs ls.
Proof. exact frequent_label_ok. Qed.
Print Assumptions radius_predict_most_frequent.
(** C80.  "manual": they get the label of the caller if the labels are 0, 1, ... without a gap or do not contain it.
    Missing: other labels, see below. *)
Theorem radius_predict_manual_partial : forall (y : list Z) (l : Z) (nbs : list (list (Z * f64))), y <> [] ->
  (without_gap y \/ ~ In l y) -> Forall (fun nb => nb = [] \/ (among y nb /\ countable nb)) nbs ->
  exists ls, radius_predict (set_manual_label (set_labels new_labelled y) l) Uniform OManual nbs = Some (Some ls) /\
    Forall2 (radius_label_ok y l) nbs ls.
Proof. exact manual_ok. Qed.
Print Assumptions radius_predict_manual_partial.
(** C80, refuted: the label is taken for its place among the classes.  Labels 1 and 2, the caller's label is 1: a query
    without neighbours gets 2.  Labels 10 and 20: a write behind the array. *)
Theorem radius_predict_manual_refuted :
  radius_predict (set_manual_label (set_labels new_labelled [1; 2]) 1) Uniform OManual [[]] = Some (Some [2]) /\
  radius_predict (set_manual_label (set_labels new_labelled [10; 20]) 10) Uniform OManual [[]] = None.
Proof. vm_compute. split; reflexivity. Qed.
Print Assumptions radius_predict_manual_refuted.
Example radius_predict_case :
  let y := [0; 1; 1; 2] in let nbs := [[(0, f64_of_Z 1)]; []; [(1, f64_of_Z 1); (3, f64_of_Z 1); (2, f64_of_Z 1)]] in
  radius_predict (set_manual_label (set_labels new_labelled y) 2) Uniform OManual nbs = Some (Some [0; 2; 1]) /\
  radius_predict (set_manual_label (set_labels new_labelled y) 9) Uniform OManual nbs = Some (Some [0; 9; 1]) /\
  radius_predict (set_labels new_labelled y) Uniform OMostFrequent nbs = Some (Some [0; 1; 1]) /\
  radius_predict (set_labels new_labelled y) Uniform ONone nbs = Some None /\ without_gap y.
Proof.
  cbv zeta. do 4 (split; [vm_compute; reflexivity|]). intros l Hl. cbn in Hl.
  assert (0 <= l <= 2) by intuition lia. split; [lia|]. intros l' H'. cbn. lia.
Qed.

(** C81.  The results of a radius search: the counts for an array of the right size, and offsets that lead to the
    neighbours of each query that has some. *)
Theorem radius_counts_partial : forall (found : list (list Z)) (dim : Z), dim = Z.of_nat (length found) + 1 ->
  result_count found dim = Some (inr (map (fun l => Z.of_nat (length l)) found ++ [Z.of_nat (length (concat found))])).
Proof. exact count_ok. Qed.
Print Assumptions radius_counts_partial.
Theorem radius_offsets_lead : forall (found : list (list Z)) (dim : Z), Z.of_nat (length found) + 1 <= dim ->
  exists os, result_offsets found dim = inr os /\ length os = S (length found) /\ last os 0 = Z.of_nat (length (concat found)) /\
  forall j, (j < length found)%nat -> nth j found [] <> [] ->
    0 <= nth j os 0 /\ slice (concat found) (nth j os 0) (Z.of_nat (length (nth j found []))) = nth j found [].
Proof.
  intros found dim H. unfold result_offsets. replace (dim <? Z.of_nat (length found) + 1) with false by (symmetry; apply Z.ltb_ge; lia).
  eexists. split; [reflexivity|]. destruct (offsets_ok found 0) as [A [B C]]. split; [exact A|]. split; [exact B|].
  intros j Hj Hn. specialize (C j Hj Hn). rewrite Z.sub_0_r in C. exact C.
Qed.
Print Assumptions radius_offsets_lead.
(** C81.  The indices of all neighbours, query after query, into an array that has room for them; otherwise their number. *)
Theorem radius_indices_fit : forall (found : list (list Z)) (dim : Z),
  result_indices found dim =
    if Z.of_nat (length (concat found)) <=? dim then inr (concat found) else inl (Z.of_nat (length (concat found))).
Proof. exact indices_ok. Qed.
Print Assumptions radius_indices_fit.
Example radius_indices_case : result_indices [[3; 1]; []; [2]] 3 = inr [3; 1; 2] /\ result_indices [[3; 1]; []; [2]] 2 = inl 3.
Proof. vm_compute. split; reflexivity. Qed.
(** C81, refuted: a larger array is accepted for the counts, and the counts of queries that do not exist are read. *)
Theorem radius_counts_refuted : result_count [[3; 1]; []] 4 = None /\ result_offsets [[3; 1]; []] 4 = inr [0; -1; 2].
Proof. vm_compute. split; reflexivity. Qed.
Print Assumptions radius_counts_refuted.
(** C81, refuted: the classes of a handle asked for with too large a number, or before anything was predicted. *)
Theorem classes_result_refuted : nn_classes (need_classes (set_labels new_labelled [1; 1; 2])) 3 = None /\
  nn_classes (set_labels new_labelled [1; 1; 2]) 2 = None.
Proof. vm_compute. split; reflexivity. Qed.
Print Assumptions classes_result_refuted.
Example radius_results_case : result_count [[3; 1]; []; [2]] 4 = Some (inr [2; 0; 1; 3]) /\
  result_offsets [[3; 1]; []; [2]] 4 = inr [0; -1; 2; 3].
Proof. vm_compute. split; reflexivity. Qed.

(** C82.  Brute force within a radius: for every schedule exactly the samples whose distance is at most the radius. *)
Theorem radius_brute_exact : forall (D : Z -> f64) (r : f64) (n max_block : Z) (threads : list (list Z)) (n_blocks rem : Z),
  0 < n -> 0 < max_block ->
  blocking_scheme n (Z.min max_block n) = Some (n_blocks, rem) -> Permutation (concat threads) (zrange n_blocks) ->
  Permutation (radius_brute D r n max_block threads) (within D r n).
Proof. exact brute_within. Qed.
Print Assumptions radius_brute_exact.
Example radius_brute_case :
  let D := fun i => f64_of_Z (Z.abs (3 - i)) in
  blocking_scheme 5 (Z.min 2 5) = Some (3, 1) /\ map fst (radius_brute D (f64_of_Z 1) 5 2 [[1]; [2; 0]]) = [2; 3; 4].
Proof. vm_compute. split; reflexivity. Qed.
(** C82, refuted: with the metric of the matrix product the squares are not kept from falling below 0 (they are in the
    search for k neighbours), and the distances the caller gets are not numbers. *)
Theorem radius_brute_gemm_refuted :
  let D := fun i => distance (arith64 pow_2) EuclideanGemm two64 half64 [f64_of_Z 189877885] (large_rows i) in
  map (fun e => (fst e, is_nan (f64_sqrt (snd e)))) (radius_brute D (f64_of_Z 4) 2 2048 [[0]]) = [(0, true)].
Proof. vm_compute. reflexivity. Qed.
Print Assumptions radius_brute_gemm_refuted.

(** C83.  The distances of the last accepted search, with the roots taken once, ordered if asked for.  Missing: a call that
    is refused in between, see below. *)
Theorem radius_distances_partial : forall (roots : bool) (s : radius_result) (sorted : bool) (ds : list f64),
  radius_distances roots (radius_call roots s true sorted (Some ds)) =
    Some (given roots (if sorted then map snd (stable_sort f64_lt (map (fun d => (0, d)) ds)) else ds)).
Proof. exact call_ok. Qed.
Print Assumptions radius_distances_partial.
(** C83.  A request to order results without distances is refused and leaves the results of the search before as they were. *)
Theorem radius_refused_order : forall (roots : bool) (s : radius_result) (found : option (list f64)),
  radius_call roots s false true found = s.
Proof. reflexivity. Qed.
Print Assumptions radius_refused_order.
(** C83, refuted: a call that is refused changes whether the results of the one before count as ordered, that is whether
    their roots have been taken: the distance 2 is returned as 4, or as the root of 2. *)
Theorem radius_distances_refuted :
  let s := RadiusResult [] false false false in
  let after first_sorted second_sorted :=
    radius_distances true (radius_call true (radius_call true s true first_sorted (Some [f64_of_Z 4])) true second_sorted None) in
  option_map (map (fun d => f64_eq d (f64_of_Z 4))) (after false true) = Some [true] /\
  option_map (map (fun d => f64_lt d (f64_of_Z 2))) (after true false) = Some [true].
Proof. vm_compute. split; reflexivity. Qed.
Print Assumptions radius_distances_refuted.
Example radius_distances_case :
  option_map (map (fun d => f64_eq d (f64_of_Z 2))) (radius_distances true (radius_call true (RadiusResult [] false false false)
    true true (Some [f64_of_Z 9; f64_of_Z 4]))) = Some [true; false].
Proof. vm_compute. reflexivity. Qed.
