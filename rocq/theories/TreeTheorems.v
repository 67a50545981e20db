(** Decision trees. *)
From Coq Require Import ZArith List Bool Reals Lia.
From Flocq Require Import Core IEEE754.BinarySingleNaN.
From Verif Require Import Base Par F64 SortModel SortSpec SortProofs TreeModel TreeSpec TreePartProofs TreeGrowProofs TreeFitProofs TreeSearchModel
  TreeSearchSpec TreeTrainModel TreeTrainSpec TreeTrainProofs.
Import ListNotations.
Local Open Scope Z_scope.

(** ** C35: partition of the samples of a node *)
(** The samples of a node are rearranged so that those on the left side come first and the returned index is the
    boundary, provided that one of them is on the right side. *)
Theorem partition_correct_partial : forall X xlen ldx use_hist binned blen nobs nd s,
  0 <= first nd <= last nd -> last nd < nobs ->
  (forall p, first nd <= p <= last nd -> readable X xlen ldx use_hist blen nd (s p)) ->
  (exists p, first nd <= p <= last nd /\ on_left X ldx use_hist binned nd (s p) = false) ->
  exists s' k, partition_samples X xlen ldx use_hist binned blen nobs nd s = Some (s', k) /\
    split_at (on_left X ldx use_hist binned nd) (first nd) (last nd) s s' k.
Proof.
  intros X xlen ldx use_hist binned blen nobs nd s R L RD E.
  destruct (partition_ok X xlen ldx use_hist binned blen nobs nd _ s (proj1 R) L (proj2 R) (readable_sided X xlen ldx use_hist binned blen nobs nd s RD))
    as (s' & k & P & _ & _ & S & _).
  exists s', k. auto.
Qed.
Print Assumptions partition_correct_partial.

Example partition_case :
  let nd := Node false 0 1 2 0 (f64_of_Z 0) Continuous 0 1 (f64_of_Z 4) (-1) 1 5 5 [] in
  let X p := f64_of_Z (table [0; 0; 0; 0; 0; 0; 9; 7; 2; 4; 1; 8] p) in
  (forall p, 1 <= p <= 5 -> readable X 12 6 false 0 nd p) /\ on_left X 6 false (fun _ => 0) nd 1 = false /\
  option_map (fun '(s, k) => (map s (zrange 6), k)) (partition_samples X 12 6 false (fun _ => 0) 0 6 nd (fun i => i)) = Some ([0; 4; 2; 3; 1; 5], 3).
Proof.
  intros nd X. split; [|split; vm_compute; reflexivity]. intros p P. unfold readable. cbn [nd feature prop threshold].
  split; [lia|]. split; [|reflexivity]. assert (H : In p (zrange 6)) by (apply in_zrange; lia). cbn in H.
  repeat (destruct H as [<-|H]; [vm_compute; reflexivity|]). contradiction.
Qed.

(** If all samples are on the left side, the last one is split off all the same. *)
Theorem partition_all_left_refuted : forall X xlen ldx use_hist binned blen nobs nd s,
  0 <= first nd <= last nd -> last nd < nobs ->
  (forall p, first nd <= p <= last nd -> readable X xlen ldx use_hist blen nd (s p)) ->
  (forall p, first nd <= p <= last nd -> on_left X ldx use_hist binned nd (s p) = true) ->
  exists s' k, partition_samples X xlen ldx use_hist binned blen nobs nd s = Some (s', k) /\ k = last nd - 1 /\
    ~ split_at (on_left X ldx use_hist binned nd) (first nd) (last nd) s s' k.
Proof.
  intros X xlen ldx use_hist binned blen nobs nd s R L RD A.
  destruct (partition_ok X xlen ldx use_hist binned blen nobs nd _ s (proj1 R) L (proj2 R) (readable_sided X xlen ldx use_hist binned blen nobs nd s RD))
    as (s' & k & P & RE & _ & _ & K).
  exists s', k. split; [exact P|]. split; [now apply K|]. rewrite (K A). intros (_ & _ & _ & RI).
  destruct (rearranged_from _ _ _ _ (last nd) RE ltac:(lia)) as (j & J & EJ). specialize (RI (last nd) ltac:(lia)). rewrite EJ, A in RI by lia. discriminate.
Qed.
Print Assumptions partition_all_left_refuted.

(** This happens in training: the threshold between 2^52 + 1 and 2^52 + 2 is 2^52 + 2, so the samples 0, 1, 2 are all on the
    left side; sample 2 is split off and a leaf with samples of both classes remains. *)
Definition rounds_up : training := raw_case [2 ^ 52 + 1; 2 ^ 52 + 2; 2 ^ 52 + 2] 3 1 [0; 1; 1] 2 1 false (-1).
Theorem training_splits_off_a_sample_refuted :
  shape rounds_up = Some [(false, 0, (0, 2), 1); (true, -1, (2, 2), 1); (true, -1, (0, 1), 0)] /\
  f64_le (f64_of_Z (2 ^ 52 + 2)) (midpoint (f64_of_Z (2 ^ 52 + 1)) (f64_of_Z (2 ^ 52 + 2))) = true.
Proof. split; vm_compute; reflexivity. Qed.
Print Assumptions training_splits_off_a_sample_refuted.

(** A NaN is on neither side: the samples are swapped for ever (the rounds allowed do not suffice). *)
Example nan_never_ends :
  let nd := Node false 0 1 2 0 (f64_of_Z 0) Continuous 0 0 (f64_of_Z 1) (-1) 0 1 2 [] in
  forall fuel, partition_loop (fun _ => B754_nan) 2 2 false (fun _ => 0) 0 2 fuel nd (fun i => i) 0 1 = None.
Proof.
  intros nd fuel. enough (H : forall s, (s 0 = 0 /\ s 1 = 1) \/ (s 0 = 1 /\ s 1 = 0) ->
    partition_loop (fun _ => B754_nan) 2 2 false (fun _ => 0) 0 2 fuel nd s 0 1 = None) by (apply H; left; auto).
  induction fuel as [|fuel IH]; intros s H; [reflexivity|].
  destruct H as [(A & B)|(A & B)]; cbn -[Z.add Z.mul UtilModel.store_at]; rewrite A, B; cbn -[UtilModel.store_at]; apply IH; unfold UtilModel.store_at; cbn; rewrite ?A, ?B; auto.
Qed.

(** Histograms of data with a leading dimension larger than the number of samples: the bins are read at the wrong places.
    Feature 1 separates the classes, yet samples of both classes are put together, or the reading leaves the array. *)
Definition padded : training :=
  hist_case [5; 5; 5; 0; 30; 20; 10; 0; 5; 5; 5; 0] 4 3 3 [1; 0; 0] 2 1 false [0; 0; 0; 2; 1; 0; 0; 0; 0] 4 3 [15; 25; 0; 15; 25; 0; 15; 25; 0].
Definition padded_outside : training :=
  hist_case [5; 5; 5; 0; 10; 20; 30; 0] 4 3 2 [0; 1; 1] 2 1 false [0; 0; 0; 0; 1; 2] 4 3 [15; 25; 0; 15; 25; 0].
Theorem histogram_leading_dimension_refuted :
  shape padded = Some [(false, 1, (0, 2), 0); (true, -1, (2, 2), 0); (true, -1, (0, 1), 0)] /\
  predictions padded = Some [Some 0; Some 0; Some 0] /\
  train padded_outside 0 = None.
Proof. repeat split; vm_compute; reflexivity. Qed.
Print Assumptions histogram_leading_dimension_refuted.

(** ** Growing: a tree is always found, and it is what it should be. *)
(** Training on valid input ends, stays inside all arrays, and gives a binary tree: a root with all samples, nodes that
    divide their samples between two children one level deeper, leaves that share out all samples, no deeper than the
    maximum.  Every node predicts the majority class of its samples and has their class proportions. *)
Theorem trained_tree_is_well_grown : forall c depth0, valid_input c -> valid_data c -> 0 <= depth0 ->
  exists st, train c depth0 = Some st /\
    well_grown (nodes st) (t_nobs c) (t_max_depth c) /\ leaves_partition (nodes st) (t_nobs c) /\
    rearranged 0 (t_nobs c) (t_start c) (samples st) /\
    predicts_majority (t_y c) (t_weight c) (t_class c) (nodes st) (samples st) /\
    has_proportions (t_y c) (t_weight c) (t_class c) (nodes st) (samples st) /\
    (0 < t_max_depth c -> n_leaves st = count_leaves (nodes st)).
Proof.
  intros c d VI VD D. destruct (train_inv c d VI VD D) as (st & E & _). exists st. split; [exact E|]. exact (trained c d st VI VD D E).
Qed.
Print Assumptions trained_tree_is_well_grown.

(** The depth kept is the depth of the tree, in a first training. *)
Theorem trained_depth_partial : forall c st, valid_input c -> valid_data c -> train c 0 = Some st -> is_depth (nodes st) (tdepth st).
Proof. exact trained_depth. Qed.
Print Assumptions trained_depth_partial.

(** ** C37: the minimum size *)
Theorem minimum_size_partial : forall c depth0 st, valid_input c -> valid_data c -> well_separated c -> 0 <= depth0 ->
  train c depth0 = Some st -> has_minimum (t_min_node c) (nodes st).
Proof. exact trained_minimum. Qed.
Print Assumptions minimum_size_partial.

(** ** C36: training and prediction *)
(** Prediction for a training sample ends in the leaf that has it, so it gives the majority class of that leaf. *)
Theorem training_sample_reaches_its_leaf_partial : forall c depth0 st p, valid_input c -> valid_data c -> well_separated c -> 0 <= depth0 ->
  train c depth0 = Some st -> 0 <= p < t_nobs c ->
  exists i nd, descend predict_left (length (nodes st)) (nodes st) (row c (samples st p)) 0 = Some i /\
    node_at (nodes st) i nd /\ leaf nd = true /\ has nd p.
Proof. exact trained_routes. Qed.
Print Assumptions training_sample_reaches_its_leaf_partial.

Theorem training_sample_predicted_as_its_leaf_partial : forall c depth0 st p nd, valid_input c -> valid_data c -> well_separated c -> 0 <= depth0 ->
  train c depth0 = Some st -> 0 <= p < t_nobs c -> leaf_of (nodes st) p nd ->
  predict (nodes st) (row c (samples st p)) = Some (pred_class nd) /\
  is_first_max (class_weight (t_y c) (t_weight c) (samples st) (first nd) (last nd)) (t_class c) (pred_class nd).
Proof.
  intros c d st p nd VI VD WS D E P LO. split; [exact (trained_predicts c d st p nd VI VD WS D E P LO)|].
  destruct LO as (i & N & _). destruct (trained c d st VI VD D E) as (_ & _ & _ & PM & _). exact (PM i nd N).
Qed.
Print Assumptions training_sample_predicted_as_its_leaf_partial.

(** ** C38: the predicted class is the most probable one *)
Theorem predicted_class_most_probable_partial : forall c depth0 st x, valid_input c -> valid_data c -> well_separated c ->
  t_one_vs_all c = false -> t_total c < 2 ^ 53 -> 0 <= depth0 -> train c depth0 = Some st ->
  exists k ps, predict (nodes st) x = Some k /\ predict_proba (nodes st) x = Some ps /\
    length ps = Z.to_nat (t_class c) /\ 0 <= k < t_class c /\ most_probable ps k.
Proof. exact trained_most_probable. Qed.
Print Assumptions predicted_class_most_probable_partial.

(** ** The best split of a feature *)
Theorem best_split_of_feature_partial : forall c nd count j s sp, node_state c nd count s -> 0 <= j < t_features c ->
  1 <= t_min_node c -> score_reads (t_score c) (t_class c) ->
  f64_lt (f64_of_Z 0) (t_feat_thresh c) = true -> t_cat_feat c j <= 0 ->
  raw_data (t_X c) (t_xlen c) (t_ldx c) (t_samples c) (t_features c) (t_one_vs_all c) (t_cat_feat c) (t_max_cat c) ->
  exists const sp' s', compute_raw c nd count j s sp = Some (const, sp', s') /\
    rearranged (first nd) (last nd - first nd + 1) s s' /\
    let fv p := row c (s' p) j in
    sorted_values fv (first nd) (last nd) /\
    if const : bool then sp' = sp /\ close const_tol (fv (last nd)) (fv (first nd)) = true
    else few_ties (t_feat_thresh c) fv (first nd) (last nd) (t_min_node c) -> b_feat sp' = j /\ best_cut c nd s' fv sp'.
Proof. exact feature_best. Qed.
Print Assumptions best_split_of_feature_partial.

(** Whole numbers up to 2^51 are separated. *)
Theorem whole_numbers_separated : forall (z : Z -> Z) ldx n nf,
  (forall j i, 0 <= j < nf -> 0 <= i < n -> Z.abs (z (ldx * j + i)) <= 2 ^ 51) ->
  separated (fun p => f64_of_Z (z p)) ldx n nf.
Proof. exact whole_separated. Qed.
Print Assumptions whole_numbers_separated.

(** *** The hypotheses can be met: a training set of five samples with two features, raw and with histograms. *)
Definition small : training := raw_case [1; 2; 3; 4; 5; 7; 7; 3; 3; 7] 5 2 [0; 0; 1; 0; 1] 2 1 false (-1).
Definition small_hist : training :=
  hist_case [1; 2; 3; 4; 5; 7; 7; 3; 3; 7] 5 5 2 [0; 0; 1; 0; 1] 2 1 false [0; 0; 1; 1; 2; 1; 1; 0; 0; 1] 4 3 [3; 5; 0; 7; 9; 0].

Ltac cases_Z i n := let H := fresh in assert (H : In i (zrange n)) by (apply in_zrange; lia); cbn in H; repeat (destruct H as [<-|H]); [..|contradiction].

Lemma small_valid : valid_input small /\ valid_input small_hist.
Proof.
  assert (L : forall i, 0 <= i < 5 -> 0 <= table [0; 0; 1; 0; 1] i < 2) by (intros i I; cases_Z i 5; vm_compute; (split; [discriminate|reflexivity])).
  split; (split; cbn [small small_hist raw_case hist_case t_samples t_y t_class t_nobs t_start t_features t_max_depth t_min_node t_nfeat_split t_score t_draw t_total];
    [exact L|lia|intros p P; lia|intros p P; cbn; lia|reflexivity|lia|lia|lia|lia|apply gini_reads|intros; lia]).
Qed.
Lemma small_data : valid_data small /\ valid_data small_hist /\ well_separated small /\ well_separated small_hist.
Proof.
  split; [|split; [|split]].
  - unfold valid_data. cbn [small raw_case t_hist]. split; cbn [small raw_case t_X t_xlen t_ldx t_samples t_features t_one_vs_all t_cat_feat t_max_cat].
    + intros j i J I. nia.
    + intros j i J I. cases_Z j 2; cases_Z i 5; vm_compute; reflexivity.
    + discriminate.
  - unfold valid_data. cbn [small_hist hist_case t_hist]. split; [reflexivity|].
    split; cbn [small_hist hist_case t_X t_ldx t_samples t_features t_binned t_blen t_max_bin t_nbins t_thresholds].
    + intros j i J I. nia.
    + intros j i J I. cases_Z j 2; cases_Z i 5; vm_compute; (split; [discriminate|reflexivity]).
    + lia.
    + intros j i b J I B. cases_Z j 2; cases_Z i 5; (assert (H : b = 0 \/ b = 1) by lia; destruct H as [->| ->]); vm_compute; reflexivity.
  - unfold well_separated. cbn [small raw_case t_hist t_X t_ldx t_samples t_features t_feat_thresh t_min_node t_cat_feat t_one_vs_all t_bootstrap].
    split; [|split; [vm_compute; reflexivity|split; [lia|split; [left; lia|discriminate]]]].
    apply whole_numbers_separated. intros j i J I. cases_Z j 2; cases_Z i 5; vm_compute; discriminate.
  - reflexivity.
Qed.
Example small_trees :
  shape small = Some [(false, 0, (0, 4), 0); (false, 0, (2, 4), 1); (true, -1, (0, 1), 0); (false, 0, (3, 4), 0); (true, -1, (2, 2), 1); (true, -1, (4, 4), 1); (true, -1, (3, 3), 0)] /\
  predictions small = Some [Some 0; Some 0; Some 1; Some 0; Some 1] /\
  predictions small_hist = Some [Some 0; Some 0; Some 0; Some 0; Some 1].
Proof. repeat split; vm_compute; reflexivity. Qed.
Example small_meets_the_theorems : exists st st', train small 0 = Some st /\ has_minimum 1 (nodes st) /\ is_depth (nodes st) (tdepth st) /\
  train small_hist 0 = Some st' /\ leaves_partition (nodes st') 5.
Proof.
  destruct small_valid as (V1 & V2). destruct small_data as (D1 & D2 & S1 & S2).
  destruct (trained_tree_is_well_grown small 0 V1 D1 ltac:(lia)) as (st & E & _).
  destruct (trained_tree_is_well_grown small_hist 0 V2 D2 ltac:(lia)) as (st' & E' & _ & LP & _).
  exists st, st'. split; [exact E|]. split; [exact (minimum_size_partial small 0 st V1 D1 S1 ltac:(lia) E)|].
  split; [exact (trained_depth_partial small st V1 D1 E)|]. auto.
Qed.

(** The root of the small training set: the best cut of feature 0 is between 2 and 3, that of feature 1 between 3 and 7. *)
Definition small_root : node := Node true (-1) (-1) (-1) 0 (gini_score 2 5 (table [3; 2])) Continuous 0 (-1) (f64_of_Z 0) (-1) 0 4 5 [].
Definition no_split : best := Best Continuous (-1) (nscore small_root) (f64_of_Z 0) (f64_of_Z 0) (f64_of_Z 0) (-1).
Example best_split_case :
  node_state small small_root (fun k => class_weight (t_y small) (t_weight small) (fun i => i) 0 4 k) (fun i => i) /\
  map (fun j => option_map (fun '(const, sp, s) => (const, b_feat sp, B2SF (b_threshold sp), map s (zrange 5)))
         (compute_raw small small_root (fun k => class_weight (t_y small) (t_weight small) (fun i => i) 0 4 k) j (fun i => i) no_split)) [0; 1] =
  [Some (false, 0, B2SF (f64_div (f64_of_Z 5) (f64_of_Z 2)), [0; 1; 2; 3; 4]); Some (false, 1, B2SF (f64_of_Z 5), [2; 3; 0; 1; 4])] /\
  few_ties (t_feat_thresh small) (fun p => row small p 0) 0 4 (t_min_node small) /\
  valid_cut (t_y small) (t_weight small) (t_score small) (t_total small) 1 (t_min_improvement small) small_root (fun i => i) (fun p => row small p 0) 1.
Proof.
  split; [|split; [vm_compute; reflexivity|split]].
  - split; [cbn; lia| | |reflexivity|reflexivity]; intros p P; cbn; cbn in P; lia.
  - intros p P. cbn in P. lia.
  - split; [cbn; lia|]. split; [vm_compute; reflexivity|]. split; [vm_compute; discriminate|]. split; [vm_compute; discriminate|vm_compute; reflexivity].
Qed.

(** ** What does not hold *)
(** C36: the threshold between 2^52 and 2^52 + 1 is 2^52.  Training compares with <=, prediction with <: sample 0 is alone in a
    leaf of class 0 and is predicted to be in class 1. *)
Definition rounds_down : training := raw_case [2 ^ 52; 2 ^ 52 + 1] 2 1 [0; 1] 2 1 false (-1).
Theorem training_sample_predicted_elsewhere_refuted :
  shape rounds_down = Some [(false, 0, (0, 1), 0); (true, -1, (1, 1), 1); (true, -1, (0, 0), 0)] /\
  predictions rounds_down = Some [Some 1; Some 1].
Proof. split; vm_compute; reflexivity. Qed.
Print Assumptions training_sample_predicted_elsewhere_refuted.

(** C36: histograms and one-vs-all: the category of a split is the number of a bin, prediction compares the value with it.
    Sample 1 is alone in a leaf of class 1 and is predicted to be in class 0; with ordered splits it is not. *)
Definition binned_categories (ova : bool) : training := hist_case [10; 20; 30] 3 3 1 [0; 1; 0] 2 1 ova [0; 1; 2] 4 3 [15; 25; 0].
Theorem one_vs_all_bins_predicted_elsewhere_refuted :
  shape (binned_categories true) =
    Some [(false, 0, (0, 2), 0); (false, 0, (1, 2), 0); (true, -1, (0, 0), 0); (true, -1, (2, 2), 0); (true, -1, (1, 1), 1)] /\
  predictions (binned_categories true) = Some [Some 0; Some 0; Some 0] /\
  predictions (binned_categories false) = Some [Some 0; Some 1; Some 0].
Proof. repeat split; vm_compute; reflexivity. Qed.
Print Assumptions one_vs_all_bins_predicted_elsewhere_refuted.

(** C37: two equal values at the start and a minimum of 3: the second is counted twice, the left child has 2 samples. *)
Definition tied : training := raw_case [1; 1; 2; 3; 4; 5] 6 1 [0; 0; 1; 1; 1; 1] 2 3 false (-1).
Theorem minimum_size_refuted :
  shape tied = Some [(false, 0, (0, 5), 1); (true, -1, (2, 5), 1); (true, -1, (0, 1), 0)] /\ t_min_node tied = 3.
Proof. split; vm_compute; reflexivity. Qed.
Print Assumptions minimum_size_refuted.

(** C37: one-vs-all with samples drawn with repetitions: the counts for a category are those of the distinct samples, the
    others are weighted.  Both samples are of category 1, the only one; they are split all the same. *)
Definition drawn_twice : training :=
  Training (fun p => f64_of_Z 1) 2 2 2 1 (table [0; 1]) 2 2 4 (fun i => i) true (table [3; 1]) (gini_score 2) 3 2
    (f64_of_Z 0) (f64_of_Z 0) const_tol true (fun _ => 2) 2 (fun _ => 10) false (fun _ => 0) 0 2 (fun _ => 0) (fun _ => f64_of_Z 0)
    1 (fun _ a _ => a).
Theorem weighted_categories_refuted :
  shape drawn_twice = Some [(false, 0, (0, 1), 0); (true, -1, (1, 1), 1); (true, -1, (0, 0), 0)] /\
  predictions drawn_twice = Some [Some 0; Some 0].
Proof. split; vm_compute; reflexivity. Qed.
Print Assumptions weighted_categories_refuted.

(** C38: predict_proba does not know one-vs-all splits: all samples are given probability 1 for class 0, samples 1 and 4 are
    predicted to be in class 1. *)
Definition categories : training := raw_case [0; 1; 2; 0; 1; 2] 6 1 [0; 1; 0; 0; 1; 0] 2 1 true 3.
Theorem predicted_class_not_most_probable_refuted :
  predictions categories = Some [Some 0; Some 1; Some 0; Some 0; Some 1; Some 0] /\
  option_map (fun st => map (fun i => option_map (map f64_trunc) (predict_proba (nodes st) (row categories i))) (zrange 6)) (train categories 0) =
    Some (repeat (Some [1; 0]) 6).
Proof. split; vm_compute; reflexivity. Qed.
Print Assumptions predicted_class_not_most_probable_refuted.

(** Features found constant in a node are taken for constant in its sibling: feature 1 separates samples 4-6 (class 2)
    from sample 7 (class 3), but their node stays a leaf because feature 1 is constant for samples 0-3.  On its own the
    second half is separated. *)
Definition siblings : training :=
  raw_case [0; 0; 0; 0; 1; 1; 1; 1;  0; 0; 0; 0; 0; 0; 0; 1;  0; 0; 0; 1; 0; 0; 0; 0] 8 3 [0; 0; 0; 1; 2; 2; 2; 3] 4 1 false (-1).
Definition second_half : training := raw_case [1; 1; 1; 1;  0; 0; 0; 1;  0; 0; 0; 0] 4 3 [2; 2; 2; 3] 4 1 false (-1).
Theorem constant_in_sibling_refuted :
  shape siblings = Some [(false, 0, (0, 7), 0); (true, -1, (4, 7), 2); (false, 2, (0, 3), 0); (true, -1, (3, 3), 1); (true, -1, (0, 2), 0)] /\
  predictions siblings = Some [Some 0; Some 0; Some 0; Some 1; Some 2; Some 2; Some 2; Some 2] /\
  predictions second_half = Some [Some 2; Some 2; Some 2; Some 3].
Proof. repeat split; vm_compute; reflexivity. Qed.
Print Assumptions constant_in_sibling_refuted.

(** The depth is not reset when a handle is trained again, and a tree that is only a root is said to have no leaves. *)
Definition root_only : training :=
  Training (fun p => f64_of_Z (table [0; 1] p)) 2 2 2 1 (table [0; 1]) 2 2 2 (fun i => i) false (fun _ => 0) (gini_score 2) 0 1
    (f64_of_Z 0) (f64_of_Z 0) const_tol false (fun _ => -1) 0 (fun _ => 10) false (fun _ => 0) 0 2 (fun _ => 0) (fun _ => f64_of_Z 0)
    1 (fun _ a _ => a).
Theorem depth_and_leaves_refuted :
  option_map (fun st => (tdepth st, map ndepth (nodes st))) (train second_half 3) = Some (3, [0; 1; 1]) /\
  option_map (fun st => (n_leaves st, count_leaves (nodes st))) (train root_only 0) = Some (0, 1).
Proof. split; vm_compute; reflexivity. Qed.
Print Assumptions depth_and_leaves_refuted.
