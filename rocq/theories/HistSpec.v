(** What users of trees trained with histograms rely on. *)
From Coq Require Import ZArith List Bool Permutation.
From Flocq Require Import BinarySingleNaN.
From Verif Require Import Base Par F64 ForestModel HistModel TreeModel TreeSearchModel TreeTrainModel.
Import ListNotations.
Local Open Scope Z_scope.

(** [sorted j] is a sorted arrangement of the column [j] of the matrix. *)
Definition sorted_columns (X : Z -> f64) (ldx n_samples n_features : Z) (sorted : Z -> Z -> f64) : Prop :=
  forall j, 0 <= j < n_features ->
    Permutation (map (sorted j) (zrange n_samples)) (map (fun i => X (j * ldx + i)) (zrange n_samples)) /\
    forall i k, 0 <= i < k -> k < n_samples -> f64_lt (sorted j k) (sorted j i) = false.
(** no entry of the matrix is a NaN; all are finite *)
Definition numbers (X : Z -> f64) (ldx n_samples n_features : Z) : Prop :=
  forall j i, 0 <= j < n_features -> 0 <= i < n_samples -> is_nan (X (j * ldx + i)) = false.
Definition finite_numbers (X : Z -> f64) (ldx n_samples n_features : Z) : Prop :=
  forall j i, 0 <= j < n_features -> 0 <= i < n_samples -> is_finite (X (j * ldx + i)) = true.
(** The features are divided between threads in any way. *)
Definition feature_team (n_features : Z) (sched : list (list Z)) : Prop := Permutation (zrange n_features) (concat sched).
(** the samples in a bin *)
Definition bin_size (binned : Z -> Z) (n_samples j b : Z) : Z :=
  Z.of_nat (length (filter (fun i => binned (n_samples * j + i) =? b) (zrange n_samples))).

(** What compute_histograms stores for one feature, and the traces of its first loop *)
Definition feature_trace (n m : Z) (sorted : Z -> Z -> f64) (j : Z) : list (Z * f64) :=
  match feature_stores num64 n m sorted j with Some l => l | None => [] end.
Definition threshold_trace (n m : Z) (sorted : Z -> Z -> f64) (sched : list (list Z)) (tr : list (Z * f64)) : Prop :=
  interleaving (map (flat_map (feature_trace n m sorted)) sched) tr.

(** A training with the histograms that compute_histograms has made *)
Definition uses_histograms (c : training) (usr_max_bin : Z) : Prop :=
  t_hist c = true /\ t_ldx c = t_samples c /\ 0 <= t_features c /\ t_samples c <= 2 ^ 32 /\
  bins_of usr_max_bin (t_samples c) = Some (t_max_bin c) /\
  numbers (t_X c) (t_ldx c) (t_samples c) (t_features c) /\
  exists sorted sched tr thr0,
    sorted_columns (t_X c) (t_ldx c) (t_samples c) (t_features c) sorted /\ feature_team (t_features c) sched /\
    threshold_trace (t_samples c) (t_max_bin c) sorted sched tr /\
    store_all (t_max_bin c) (t_features c) tr thr0 = Some (t_thresholds c) /\
    t_nbins c = nbins num64 (t_samples c) (t_max_bin c) sorted /\
    t_blen c = t_samples c * t_features c /\
    t_binned c = binned num64 (t_samples c) (t_max_bin c) (t_X c) (t_ldx c) (t_nbins c) (t_thresholds c).
