(** Valid training input, and what is expected of a trained tree. *)
From Coq Require Import ZArith List Bool Reals.
From Flocq Require Import Core IEEE754.BinarySingleNaN.
From Verif Require Import Base Par F64 SortModel SortSpec TreeModel TreeSpec TreeSearchModel TreeSearchSpec TreeTrainModel.
Import ListNotations.
Local Open Scope Z_scope.

(** What the interface asks for: labels in range, at least one sample and one feature, options in their ranges;
    the samples in use are rows, drawn at least once; the draws of features are in the range asked for. *)
Record valid_input (c : training) : Prop := {
  v_labels : forall i, 0 <= i < t_samples c -> 0 <= t_y c i < t_class c;
  v_nobs : 1 <= t_nobs c;
  v_start : samples_ok (t_samples c) (t_nobs c) (t_start c);
  v_weights : positive (t_weight c) (t_nobs c) (t_start c);
  v_total : t_total c = total_weight (t_weight c) (t_start c) 0 (t_nobs c - 1);
  v_features : 1 <= t_features c;
  v_depth : 0 <= t_max_depth c;
  v_min : 1 <= t_min_node c;
  v_nfeat : 0 <= t_nfeat_split c;
  v_score : score_reads (t_score c) (t_class c);
  v_draw : forall k a b, a <= b -> a <= t_draw c k a b <= b }.

(** Raw data, or histograms of data without padding *)
Definition valid_data (c : training) : Prop :=
  if t_hist c
  then t_ldx c = t_samples c /\ binned_right (t_X c) (t_ldx c) (t_samples c) (t_features c) (t_binned c) (t_blen c) (t_max_bin c) (t_nbins c) (t_thresholds c)
  else raw_data (t_X c) (t_xlen c) (t_ldx c) (t_samples c) (t_features c) (t_one_vs_all c) (t_cat_feat c) (t_max_cat c).

(** The splits found divide the samples as they were counted. *)
Definition well_separated (c : training) : Prop :=
  if t_hist c then t_one_vs_all c = false
  else separated (t_X c) (t_ldx c) (t_samples c) (t_features c) /\ f64_lt (f64_of_Z 0) (t_feat_thresh c) = true /\ t_min_node c <= 2 /\
       (forall j, 0 <= j < t_features c -> t_cat_feat c j <> 1 \/ t_one_vs_all c = true) /\ (t_one_vs_all c = true -> t_bootstrap c = false).

(** The leaf with a position: prediction has to end there. *)
Definition leaf_of (t : list node) (p : Z) (nd : node) : Prop := exists i, node_at t i nd /\ leaf nd = true /\ has nd p.

(** The probability of a class is the largest one. *)
Definition most_probable (ps : list f64) (c : Z) : Prop :=
  exists p, nth_error ps (Z.to_nat c) = Some p /\ forall q, In q ps -> f64_le q p = true.

(** A node while its split is searched: its samples, the counts of their classes, their number *)
Record node_state (c : training) (nd : node) (count s : Z -> Z) : Prop := {
  ns_range : 0 <= first nd <= last nd /\ last nd < t_nobs c;
  ns_samples : samples_ok (t_samples c) (t_nobs c) s;
  ns_weights : positive (t_weight c) (t_nobs c) s;
  ns_counts : forall k, count k = class_weight (t_y c) (t_weight c) s (first nd) (last nd) k;
  ns_number : n_node nd = total_weight (t_weight c) s (first nd) (last nd) }.

(** Values closer than the threshold are equal. *)
Definition ties_equal (thresh : f64) (fv : Z -> f64) (f e : Z) : Prop :=
  forall p q, f <= p < q -> q <= e -> close thresh (fv p) (fv q) = true -> f64_lt (fv p) (fv q) = false.

(** [sp'] has the best cut of the values [fv], if there is one, and nothing better than the node otherwise. *)
Definition best_cut (c : training) (nd : node) (s : Z -> Z) (fv : Z -> f64) (sp' : best) : Prop :=
  let valid := valid_cut (t_y c) (t_weight c) (t_score c) (t_total c) (t_min_node c) (t_min_improvement c) nd s fv in
  (b_score sp' = nscore nd \/
   exists k, valid k /\ is_cut (t_y c) (t_weight c) (t_score c) nd s fv k sp' /\ f64_lt (b_score sp') (nscore nd) = true) /\
  (ties_equal (t_feat_thresh c) fv (first nd) (last nd) ->
   forall k, valid k -> f64_lt (cut_score (t_y c) (t_weight c) (t_score c) s (first nd) (last nd) k) (b_score sp') = false).

Definition compute_raw (c : training) := compute_best_split_raw (t_X c) (t_xlen c) (t_ldx c) (t_y c) (t_class c) (t_nobs c) (t_total c) (t_bootstrap c)
  (t_weights c) (t_score c) (t_min_node c) (t_min_improvement c) (t_feat_thresh c) (t_one_vs_all c) (t_cat_feat c) (t_max_cat c) (t_depth_limit c).
