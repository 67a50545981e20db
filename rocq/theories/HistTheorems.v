(** Histograms of the training data (C68). *)
From Coq Require Import ZArith List Bool Permutation Lia Reals Lra.
From Flocq Require Import Core IEEE754.BinarySingleNaN.
From Verif Require Import Base Par F64 UtilModel SortModel TreeModel TreeSpec TreeSearchModel TreeSearchSpec TreeTrainModel TreeTrainSpec TreeTrainProofs
  ForestModel HistModel HistSpec HistFloatProofs HistProofs.
Import ListNotations.
Local Open Scope Z_scope.

(** In double precision, for every way to divide the features between threads and every interleaving of their stores:
    all stores are inside the array, every sample is in the bin of its value, there are at most as many bins as asked
    for, and with finite values none is empty. *)
Theorem histograms_double X ldx n n_features usr_max_bin m sorted sched tr thr0 :
  bins_of usr_max_bin n = Some m -> n <= 2 ^ 32 -> 0 <= n_features ->
  numbers X ldx n n_features -> sorted_columns X ldx n n_features sorted ->
  feature_team n_features sched -> threshold_trace n m sorted sched tr ->
  (forall j, compute_thresholds num64 n m (sorted j) <> None) /\
  exists thr, store_all m n_features tr thr0 = Some thr /\
    let nb := nbins num64 n m sorted in
    let bin := binned num64 n m X ldx nb thr in
    binned_right X ldx n n_features bin (n * n_features) m nb thr /\
    (finite_numbers X ldx n n_features -> forall j b, 0 <= j < n_features -> 0 <= b < nb j -> 0 < bin_size bin n j b).
Proof.
  intros B N F Num S Tm I. destruct (bins_of_ok _ _ _ B) as (Hm & Hn & _). split.
  - intros j. destruct (thresholds_ok n m Hm (conj Hn N) (sorted j)) as (l & E & _). congruence.
  - destruct (thresholds_stored n n_features m sorted Hm (conj Hn N) sched tr thr0 Tm I) as (thr & E & V). exists thr. split; auto. split.
    + exact (all_binned X ldx n n_features m sorted Hm (conj Hn N) Num S thr V).
    + intros Fin j b J Bb. destruct (none_empty X ldx n n_features m sorted Hm (conj Hn N) Num S thr V Fin j b J Bb) as (i & Ii & Ei).
      apply size_positive with i; auto.
Qed.
Print Assumptions histograms_double.

(** ... and bins have equal sizes (they differ from [n / m] by less than 2) for a feature without close values. *)
Theorem histogram_bins_of_equal_size X ldx n n_features usr_max_bin m sorted sched tr thr0 thr j :
  bins_of usr_max_bin n = Some m -> n <= 2 ^ 32 ->
  finite_numbers X ldx n n_features -> sorted_columns X ldx n n_features sorted ->
  feature_team n_features sched -> threshold_trace n m sorted sched tr ->
  store_all m n_features tr thr0 = Some thr -> 0 <= j < n_features ->
  (forall i, 0 <= i < n - 1 -> f64_lt (f64_abs (f64_sub (sorted j i) (sorted j (i + 1)))) (f64_div (f64_of_Z 1) (f64_of_Z 100000)) = false) ->
  let nb := nbins num64 n m sorted in
  nb j = m /\ forall b, 0 <= b < m -> Z.abs (m * bin_size (binned num64 n m X ldx nb thr) n j b - n) < 2 * m.
Proof.
  intros B N Fin S Tm I E J D. destruct (bins_of_ok _ _ _ B) as (Hm & Hn & _).
  destruct (thresholds_stored n n_features m sorted Hm (conj Hn N) sched tr thr0 Tm I) as (thr' & E' & V).
  rewrite E in E'. injection E' as <-. split.
  - exact (nb_distinct n m sorted Hm (conj Hn N) j D).
  - exact (size_near X ldx n n_features m sorted Hm (conj Hn N) Fin S thr V j J D).
Qed.
Print Assumptions histogram_bins_of_equal_size.

(** In a tree trained with these histograms, a training sample is predicted as the leaf it was trained in. *)
Theorem histogram_tree_predicts_its_samples c usr_max_bin depth0 st p nd :
  uses_histograms c usr_max_bin -> valid_input c -> t_one_vs_all c = false -> 0 <= depth0 ->
  train c depth0 = Some st -> 0 <= p < t_nobs c -> leaf_of (nodes st) p nd ->
  predict (nodes st) (row c (samples st p)) = Some (pred_class nd).
Proof.
  intros U VI O D E P LO. pose proof (histograms_valid c usr_max_bin U) as VD. destruct U as (H & _).
  apply (trained_predicts c depth0 st p nd VI VD); auto. unfold well_separated. now rewrite H.
Qed.
Print Assumptions histogram_tree_predicts_its_samples.

(** Twelve samples, two features (the second has three different values), four bins *)
Definition twelve : list Z := [5; 1; 9; 30; 7; 2; 12; 3; 20; 15; 11; 8;  4; 4; 4; 1; 4; 1; 4; 4; 6; 6; 1; 4].
Definition twelve_sorted (j : Z) : list Z :=
  if j =? 0 then [1; 2; 3; 5; 7; 8; 9; 11; 12; 15; 20; 30] else [1; 1; 1; 4; 4; 4; 4; 4; 4; 4; 6; 6].
Definition twelve_X (p : Z) : f64 := f64_of_Z (nth (Z.to_nat p) twelve 0).
Definition twelve_s (j i : Z) : f64 := f64_of_Z (nth (Z.to_nat i) (twelve_sorted j) 0).
Definition twelve_thr : Z -> f64 :=
  match store_all 4 2 (flat_map (feature_trace 12 4 twelve_s) [1; 0]) (fun _ => f64_of_Z 0) with Some thr => thr | None => fun _ => f64_of_Z 0 end.
Lemma some_thr : store_all 4 2 (flat_map (feature_trace 12 4 twelve_s) [1; 0]) (fun _ => f64_of_Z 0) = Some twelve_thr.
Proof.
  unfold twelve_thr. assert (E : match store_all 4 2 (flat_map (feature_trace 12 4 twelve_s) [1; 0]) (fun _ => f64_of_Z 0) with Some _ => true | None => false end = true)
    by (vm_compute; reflexivity).
  destruct (store_all _ _ _ _); auto. discriminate.
Qed.
Example histogram_case :
  bins_of 4 12 = Some 4 /\ finite_numbers twelve_X 12 12 2 /\ sorted_columns twelve_X 12 12 2 twelve_s /\
  feature_team 2 [[1]; [0]] /\ threshold_trace 12 4 twelve_s [[1]; [0]] (flat_map (feature_trace 12 4 twelve_s) [1; 0]) /\
  map (nbins num64 12 4 twelve_s) [0; 1] = [4; 3] /\
  map (binned num64 12 4 twelve_X 12 (nbins num64 12 4 twelve_s) twelve_thr) (zrange 24)
  = [1; 0; 2; 3; 1; 0; 2; 0; 3; 3; 2; 1;  1; 1; 1; 0; 1; 0; 1; 1; 2; 2; 0; 1].
Proof.
  split; [reflexivity|]. split; [|split; [|split; [|split; [|split; vm_compute; reflexivity]]]].
  - intros j i J I. assert (F : forallb (fun p => is_finite (twelve_X p)) (zrange 24) = true) by (vm_compute; reflexivity).
    rewrite forallb_forall in F. apply F, in_zrange. lia.
  - intros j J. split.
    + unfold twelve_X, twelve_s. rewrite <- (map_map (fun i => nth (Z.to_nat i) (twelve_sorted j) 0) f64_of_Z), <- (map_map (fun i => nth (Z.to_nat (j * 12 + i)) twelve 0) f64_of_Z).
      apply Permutation_map. apply (Permutation_count_occ Z.eq_dec). intros x. assert (j = 0 \/ j = 1) as [-> | ->] by lia.
      * change (count_occ Z.eq_dec [1; 2; 3; 5; 7; 8; 9; 11; 12; 15; 20; 30] x = count_occ Z.eq_dec [5; 1; 9; 30; 7; 2; 12; 3; 20; 15; 11; 8] x).
        destruct (in_dec Z.eq_dec x [1; 2; 3; 5; 7; 8; 9; 11; 12; 15; 20; 30]) as [H|H].
        -- cbn [In] in H. intuition (subst; reflexivity).
        -- rewrite (proj1 (count_occ_not_In Z.eq_dec _ _) H). symmetry. apply count_occ_not_In. cbn [In] in *. intuition.
      * change (count_occ Z.eq_dec [1; 1; 1; 4; 4; 4; 4; 4; 4; 4; 6; 6] x = count_occ Z.eq_dec [4; 4; 4; 1; 4; 1; 4; 4; 6; 6; 1; 4] x).
        cbn [count_occ]. destruct (Z.eq_dec 1 x), (Z.eq_dec 4 x), (Z.eq_dec 6 x); try lia; auto.
    + intros i k I K. assert (F : forallb (fun j => forallb (fun k => forallb (fun i => negb (f64_lt (twelve_s j k) (twelve_s j i))) (zrange k)) (zrange 12)) (zrange 2) = true)
        by (vm_compute; reflexivity).
      rewrite forallb_forall in F. specialize (F j (proj2 (in_zrange 2 j) J)). rewrite forallb_forall in F.
      specialize (F k (proj2 (in_zrange 12 k) ltac:(lia))). rewrite forallb_forall in F. specialize (F i (proj2 (in_zrange k i) ltac:(lia))).
      now destruct (f64_lt (twelve_s j k) (twelve_s j i)).
  - unfold feature_team. cbn. apply perm_swap.
  - unfold threshold_trace. replace (flat_map (feature_trace 12 4 twelve_s) [1; 0]) with (concat (map (flat_map (feature_trace 12 4 twelve_s)) [[1]; [0]])).
    + apply interleaving_seq.
    + cbn [map concat flat_map]. now rewrite !app_nil_r.
Qed.

(** a training with them *)
Definition twelve_y : list Z := [0; 0; 1; 2; 0; 0; 1; 0; 2; 2; 1; 0].
Definition twelve_training : training :=
  Training twelve_X 24 12 12 2 (table twelve_y) 3 12 12 (fun i => i) false (fun _ => 0) (gini_score 3) 3 1
    (f64_of_Z 0) (f64_of_Z 0) const_tol false (fun _ => -1) 0 (fun _ => 10) true
    (binned num64 12 4 twelve_X 12 (nbins num64 12 4 twelve_s) twelve_thr) 24 4 (nbins num64 12 4 twelve_s) twelve_thr 2 (fun _ a _ => a).
Example histogram_training_case : uses_histograms twelve_training 4.
Proof.
  destruct histogram_case as (B & Fin & So & Tm & Tr & _).
  unfold uses_histograms, twelve_training. cbn [t_hist t_ldx t_samples t_features t_max_bin t_X t_thresholds t_nbins t_blen t_binned].
  split; [reflexivity|]. split; [reflexivity|]. split; [lia|]. split; [lia|]. split; [exact B|].
  split; [intros j i J I; apply finite_num, Fin; auto|].
  exists twelve_s, [[1]; [0]], (flat_map (feature_trace 12 4 twelve_s) [1; 0]), (fun _ => f64_of_Z 0).
  split; [exact So|]. split; [exact Tm|]. split; [exact Tr|]. split; [exact some_thr|]. split; [reflexivity|]. split; reflexivity.
Qed.

(** In single precision the sum of 1000 times 1/1000 is too small: 1001 bins are made where there is place for 1000,
    and the last threshold is stored behind the array. *)
Theorem histogram_single_refuted :
  exists n m l, bins_of m n = Some m /\ compute_thresholds num32 n m f32_of_Z = Some l /\
    Z.of_nat (length l) = m /\ store_all m 1 (stores 0 l) (fun _ => f32_of_Z 0) = None.
Proof.
  exists 100000, 1000.
  assert (L : option_map (@length _) (compute_thresholds num32 100000 1000 f32_of_Z) = Some 1000%nat) by (vm_compute; reflexivity).
  destruct (compute_thresholds num32 100000 1000 f32_of_Z) as [l|]; [|discriminate]. injection L as L.
  exists l. rewrite L. split; [reflexivity|]. split; auto. split; [reflexivity|]. apply stores_behind; [lia|rewrite L; lia].
Qed.
Print Assumptions histogram_single_refuted.
