(** What the search for a split has to find. *)
From Coq Require Import ZArith List Bool Reals.
From Flocq Require Import Core IEEE754.BinarySingleNaN.
From Verif Require Import Base Par F64 SortModel SortSpec TreeModel TreeSpec TreeSearchModel.
Import ListNotations.
Local Open Scope Z_scope.

(** A scoring function looks at the counts of the existing classes only. *)
Definition score_reads (score : Z -> (Z -> Z) -> f64) (n_class : Z) : Prop :=
  forall n c c', (forall k, 0 <= k < n_class -> c k = c' k) -> score n c = score n c'.

(** Scores of the two parts when the samples at positions [f .. e] are divided after position [k], and their
    mean weighted with the sizes of the parts. *)
Section Cut.
Variables (y w : Z -> Z) (score : Z -> (Z -> Z) -> f64) (s : Z -> Z) (f e k : Z).
Definition part_score (a b : Z) : f64 := score (total_weight w s a b) (class_weight y w s a b).
Definition cut_score : f64 :=
  f64_div (f64_add (f64_mul (part_score f k) (f64_of_Z (total_weight w s f k)))
                   (f64_mul (part_score (k + 1) e) (f64_of_Z (total_weight w s (k + 1) e))))
          (f64_of_Z (total_weight w s f e)).
End Cut.

(** How much a split with score [sc] improves on a node, relative to the whole training set *)
Definition gain (n_obs_total : Z) (nd : node) (sc : f64) : f64 :=
  f64_mul (f64_div (f64_of_Z (n_node nd)) (f64_of_Z n_obs_total)) (f64_sub (nscore nd) sc).

(** The values at positions [f .. e] do not decrease. *)
Definition sorted_values (fv : Z -> f64) (f e : Z) : Prop :=
  (forall p, f <= p <= e -> is_finite (fv p) = true) /\
  (forall p q, f <= p <= q -> q <= e -> f64_lt (fv q) (fv p) = false).

(** Two values closer than the feature threshold *)
Definition close (thresh : f64) (a b : f64) : bool := f64_lt (f64_abs (f64_sub b a)) thresh.

(** No two neighbours among the first [m - 1] values are closer than the threshold (nothing to ask for
    [m <= 2]). *)
Definition few_ties (thresh : f64) (fv : Z -> f64) (f e m : Z) : Prop :=
  forall p, f <= p < f + m - 2 -> p < e -> close thresh (fv p) (fv (p + 1)) = false.

(** A cut between two different values that leaves at least [m] samples on both sides and gains more than
    [least] *)
Definition valid_cut (y w : Z -> Z) (score : Z -> (Z -> Z) -> f64) (n_obs_total m : Z) (least : f64)
    (nd : node) (s : Z -> Z) (fv : Z -> f64) (k : Z) : Prop :=
  first nd <= k < last nd /\ f64_lt (fv k) (fv (k + 1)) = true /\
  m <= total_weight w s (first nd) k /\ m <= total_weight w s (k + 1) (last nd) /\
  f64_lt least (gain n_obs_total nd (cut_score y w score s (first nd) (last nd) k)) = true.

(** The split [sp] is that cut. *)
Definition is_cut (y w : Z -> Z) (score : Z -> (Z -> Z) -> f64) (nd : node) (s : Z -> Z) (fv : Z -> f64) (k : Z)
    (sp : best) : Prop :=
  b_prop sp = Continuous /\ b_threshold sp = midpoint (fv k) (fv (k + 1)) /\
  b_score sp = cut_score y w score s (first nd) (last nd) k /\
  b_left sp = part_score y w score s (first nd) k /\ b_right sp = part_score y w score s (k + 1) (last nd).

(** The raw training data: inside the matrix, finite; categories, where they are used, within the table. *)
Record raw_data (X : Z -> f64) (xlen ldx n_samples n_features : Z) (one_vs_all : bool) (cat_feat : Z -> Z) (max_cat : Z) : Prop := {
  rd_inside : forall j i, 0 <= j < n_features -> 0 <= i < n_samples -> 0 <= ldx * j + i < xlen;
  rd_finite : forall j i, 0 <= j < n_features -> 0 <= i < n_samples -> is_finite (X (ldx * j + i)) = true;
  rd_category : forall j i, 0 <= j < n_features -> 0 <= i < n_samples -> one_vs_all = true -> 0 < cat_feat j ->
    exists c, f64_round (X (ldx * j + i)) = Some c /\ 0 <= c < max_cat }.

(** Between any two values of a feature lies another double, and they are not huge: the threshold between
    them, (a + b) / 2, is strictly between. *)
Definition separated (X : Z -> f64) (ldx n_samples n_features : Z) : Prop :=
  forall j a b, 0 <= j < n_features -> 0 <= a < n_samples -> 0 <= b < n_samples ->
  let u := X (ldx * j + a) in let v := X (ldx * j + b) in
  f64_lt u v = true -> (Rabs (B2R u) <= bpow radix2 1022)%R /\ (Rabs (B2R v) <= bpow radix2 1022)%R /\
    exists m, is_finite m = true /\ f64_lt u m = true /\ f64_lt m v = true.

(** The bins of the training data are those of the thresholds. *)
Record binned_right (X : Z -> f64) (ldx n_samples n_features : Z) (binned : Z -> Z) (blen max_bin : Z) (nbins : Z -> Z) (thresholds : Z -> f64) : Prop := {
  br_inside : forall j i, 0 <= j < n_features -> 0 <= i < n_samples -> 0 <= n_samples * j + i < blen;
  br_bin : forall j i, 0 <= j < n_features -> 0 <= i < n_samples -> 0 <= binned (n_samples * j + i) < nbins j;
  br_max : forall j, 0 <= j < n_features -> nbins j <= max_bin;
  br_side : forall j i c, 0 <= j < n_features -> 0 <= i < n_samples -> 0 <= c < nbins j - 1 ->
    (binned (n_samples * j + i) <=? c) = f64_lt (X (ldx * j + i)) (thresholds (j * (max_bin - 1) + c)) }.

(** The state of the search for features is in order. *)
Definition features_ok (n_features : Z) (r : features) : Prop :=
  (forall j, 0 <= j < n_features -> 0 <= order r j < n_features) /\ (forall i, const_idx r i <= n_features).
