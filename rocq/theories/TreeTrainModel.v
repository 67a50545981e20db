(** Decision trees: training with all its parts, source/core/decision_forest/tree/decision_tree_training_fit.hpp
    233-297 and 439-560, with one thread for the splits. *)
From Coq Require Import ZArith List Bool.
From Flocq Require Import IEEE754.BinarySingleNaN.
From Verif Require Import Base Par F64 SortModel TreeModel TreeSearchModel.
Import ListNotations.
Local Open Scope Z_scope.

(** gini_score and misclassification_score, source/core/decision_forest/common/scoring.cpp 39-66 *)
Definition gini_score (n_class n : Z) (count : Z -> Z) : f64 :=
  f64_sub (f64_of_Z 1)
    (f64_div (fold_left (fun a c => f64_add a (f64_mul (f64_of_Z (count c)) (f64_of_Z (count c)))) (zrange n_class) (f64_of_Z 0))
             (f64_mul (f64_of_Z n) (f64_of_Z n))).
Definition misclassification_score (n_class n : Z) (count : Z -> Z) : f64 :=
  f64_sub (f64_of_Z 1) (f64_div (f64_of_Z (count (first_max count n_class))) (f64_of_Z n)).

(** Data, options and working memory when the root node is made (lines 439-523).  [t_samples]: rows of X.
    [t_nobs], [t_start]: the samples in use, distinct if they were drawn with repetitions
    (compress_count_occurences); [t_total] counts the repetitions, [t_weights] are the frequencies. *)
Record training := Training {
  t_X : Z -> f64; t_xlen : Z; t_ldx : Z; t_samples : Z; t_features : Z; t_y : Z -> Z; t_class : Z;
  t_nobs : Z; t_total : Z; t_start : Z -> Z; t_bootstrap : bool; t_weights : Z -> Z;
  t_score : Z -> (Z -> Z) -> f64;
  t_max_depth : Z; t_min_node : Z; t_min_split : f64; t_min_improvement : f64; t_feat_thresh : f64;
  t_one_vs_all : bool; t_cat_feat : Z -> Z; t_max_cat : Z; t_depth_limit : Z -> Z;
  t_hist : bool; t_binned : Z -> Z; t_blen : Z; t_max_bin : Z; t_nbins : Z -> Z; t_thresholds : Z -> f64;
  t_nfeat_split : Z; t_draw : Z -> Z -> Z -> Z }.

Definition t_weight (c : training) : Z -> Z := weight (t_bootstrap c) (t_weights c).
Definition search (c : training) : features -> Z -> node -> (Z -> Z) -> option (features * option split * (Z -> Z)) :=
  tree_search (t_X c) (t_xlen c) (t_ldx c) (t_samples c) (t_features c) (t_y c) (t_class c) (t_nobs c) (t_total c)
    (t_bootstrap c) (t_weights c) (t_score c) (t_min_node c) (t_min_improvement c) (t_feat_thresh c) (t_one_vs_all c)
    (t_cat_feat c) (t_max_cat c) (t_depth_limit c) (t_hist c) (t_binned c) (t_blen c) (t_max_bin c) (t_nbins c)
    (t_thresholds c) (t_nfeat_split c) (t_draw c).

(** The score of the root, lines 530-535 *)
Definition root_score (c : training) : option f64 :=
  bind (count_class_occurences (t_samples c) (t_y c) (t_class c) (t_nobs c) (t_bootstrap c) (t_weights c) (t_start c)
          (positions 0 (t_nobs c - 1)) (fun _ => 0)) (fun count => Some (t_score c (t_total c) count)).
(** Lines 525-555; the features start in order, [depth0] is the depth left from an earlier fit *)
Definition train (c : training) (depth0 : Z) : option state :=
  bind (root_score c) (fun sc =>
    fit (t_X c) (t_xlen c) (t_ldx c) (t_samples c) (t_y c) (t_class c) (t_hist c) (t_binned c) (t_blen c) (t_nobs c)
        (t_bootstrap c) (t_weights c) (t_max_depth c) (t_min_node c) (t_min_split c) features (search c)
        depth0 sc (t_start c) (t_total c) (Features (fun j => j) (fun _ => t_features c) 0)).

(** The values of a training sample *)
Definition row (c : training) (i j : Z) : f64 := t_X c (t_ldx c * j + i).

(** ** Small cases for the examples: whole numbers, gini score, all features for every split *)
Definition table (l : list Z) (p : Z) : Z := nth (Z.to_nat p) l 0.
Definition raw_case (data : list Z) (n nf : Z) (y : list Z) (nc min_node : Z) (ova : bool) (cat : Z) : training :=
  Training (fun p => f64_of_Z (table data p)) (n * nf) n n nf (table y) nc n n (fun i => i) false (fun _ => 0) (gini_score nc) 3 min_node
    (f64_of_Z 0) (f64_of_Z 0) const_tol ova (fun _ => cat) (Z.max 0 cat) (fun _ => 10) false (fun _ => 0) 0 2 (fun _ => 0) (fun _ => f64_of_Z 0)
    nf (fun _ a _ => a).
(** with histograms: [bins] of the features, at most [mb] for each, [nb] in use *)
Definition hist_case (data : list Z) (ldx n nf : Z) (y : list Z) (nc min_node : Z) (ova : bool) (bins : list Z) (mb nb : Z) (th : list Z) : training :=
  Training (fun p => f64_of_Z (table data p)) (ldx * nf) ldx n nf (table y) nc n n (fun i => i) false (fun _ => 0) (gini_score nc) 3 min_node
    (f64_of_Z 0) (f64_of_Z 0) const_tol ova (fun _ => -1) 0 (fun _ => 10) true (table bins) (n * nf) mb (fun _ => nb) (fun p => f64_of_Z (table th p))
    nf (fun _ a _ => a).
(** of each node: whether it is a leaf, feature, first and last position, predicted class *)
Definition shape (c : training) : option (list (bool * Z * (Z * Z) * Z)) :=
  option_map (fun st => map (fun nd => (leaf nd, feature nd, (first nd, last nd), pred_class nd)) (nodes st)) (train c 0).
(** the classes predicted for the training samples *)
Definition predictions (c : training) : option (list (option Z)) :=
  option_map (fun st => map (fun i => predict (nodes st) (row c i)) (zrange (t_samples c))) (train c 0).
