(** Nearest neighbours: the theorems. *)
From Coq Require Import ZArith List Bool Reals Permutation Sorted Lia Lra.
From Flocq Require Import Core BinarySingleNaN.
From Verif Require Import Base Par F64 FloatOrder UtilModel NnModel NnSpec NnSelectProofs NnProofs NnFloatProofs NnTreeProofs.
Import ListNotations.
Local Open Scope Z_scope.

(** C69.  Brute force: whatever the numbers of lanes and of threads, the size of the blocks and the way in which the
    blocks are handed to the threads, the answer for a query consists of [k] training samples with their distances (all
    samples if there are fewer), no sample left out is nearer than one of these, and they are in the order of their
    distances.  For every type of numbers whose comparisons are an order. *)
Theorem brute_force_finds_the_nearest : forall (T : Type) (N : arith T) (num : T -> Prop) (key : T -> R) (v k : nat) (D : Z -> T)
    (n max_block : Z) (threads : list (list Z)) (n_blocks rem : Z),
  compares (lt N) (le N) num key ->
  (0 < k)%nat -> 0 < n -> 0 < max_block -> (forall i, 0 <= i < n -> num (D i)) ->
  blocking_scheme n (Z.min max_block n) = Some (n_blocks, rem) -> Permutation (concat threads) (zrange n_blocks) ->
  let res := brute_force N v k D n max_block threads in
  k_smallest key k (map (fun i => (i, D i)) (zrange n)) res /\ ascending key res.
Proof.
  intros T N num key v k D n max_block threads n_blocks rem Hc.
  exact (brute_ok N num key (lt N) (le N) Hc v k D n max_block threads n_blocks rem).
Qed.
Print Assumptions brute_force_finds_the_nearest.

(** the same for the largest inner products *)
Theorem brute_force_finds_the_largest : forall (T : Type) (N : arith T) (num : T -> Prop) (key : T -> R) (v k : nat) (D : Z -> T)
    (n max_block : Z) (threads : list (list Z)) (n_blocks rem : Z),
  compares (lt N) (le N) num key ->
  (0 < k)%nat -> 0 < n -> 0 < max_block -> (forall i, 0 <= i < n -> num (D i)) ->
  blocking_scheme n (Z.min max_block n) = Some (n_blocks, rem) -> Permutation (concat threads) (zrange n_blocks) ->
  let res := brute_force_largest N v k D n max_block threads in
  k_smallest (fun d => (- key d)%R) k (map (fun i => (i, D i)) (zrange n)) res /\ ascending (fun d => (- key d)%R) res.
Proof.
  intros T N num key v k D n max_block threads n_blocks rem [H1 H2].
  apply (brute_ok N num (fun d => (- key d)%R) (fun x y => lt N y x) (fun x y => le N y x)).
  split; intros a b Ha Hb; [rewrite (H1 b a Hb Ha)|rewrite (H2 b a Hb Ha)]; split; lra.
Qed.
Print Assumptions brute_force_finds_the_largest.

Example brute_force_case :
  blocking_scheme 7 (Z.min 3 7) = Some (3, 1) /\
  brute_force arithZ 2 3 (fun i => (i - 4) * (i - 4)) 7 3 [[2; 0]; []; [1]] = [(4, 0); (5, 1); (3, 1)] /\
  brute_force_largest arithZ 2 3 (fun i => (i - 4) * (i - 4)) 7 3 [[2; 0]; []; [1]] = [(0, 16); (1, 9); (2, 4)].
Proof. vm_compute. repeat split; reflexivity. Qed.
(** the hypotheses hold there *)
Example brute_force_case_applies : compares (lt arithZ) (le arithZ) any IZR /\
  Permutation (concat [[2; 0]; []; [1]]) (zrange 3).
Proof.
  split; [exact (m_order _ _ _ _ integers_monotone)|]. cbn [concat app]. change (zrange 3) with [0; 1; 2].
  apply Permutation_trans with [0; 2; 1]; constructor. apply perm_swap.
Qed.

(** C70.  The distances do not depend on how the blocks are handed out (nor on the size of the blocks or the
    vectorisation). *)
Theorem brute_force_distances_reproducible : forall (T : Type) (N : arith T) (num : T -> Prop) (key : T -> R) (k : nat)
    (D : Z -> T) (n : Z) (v v' : nat) (b b' : Z) (threads threads' : list (list Z)) (nb rem nb' rem' : Z),
  compares (lt N) (le N) num key ->
  (0 < k)%nat -> 0 < n -> 0 < b -> 0 < b' -> (forall i, 0 <= i < n -> num (D i)) ->
  blocking_scheme n (Z.min b n) = Some (nb, rem) -> Permutation (concat threads) (zrange nb) ->
  blocking_scheme n (Z.min b' n) = Some (nb', rem') -> Permutation (concat threads') (zrange nb') ->
  same_distances key (brute_force N v k D n b threads) (brute_force N v' k D n b' threads').
Proof.
  intros T N num key k D n v v' b b' threads threads' nb rem nb' rem' Hc Hk Hn Hb Hb' HD S P S' P'.
  destruct (brute_ok N num key (lt N) (le N) Hc v k D n b threads nb rem Hk Hn Hb HD S P) as [A1 A2].
  destruct (brute_ok N num key (lt N) (le N) Hc v' k D n b' threads' nb' rem' Hk Hn Hb' HD S' P') as [B1 B2].
  exact (smallest_keys key k _ _ _ A1 A2 B1 B2).
Qed.
Print Assumptions brute_force_distances_reproducible.

(** C70 is false for the indices: with equal distances they depend on which thread was given which block. *)
Theorem brute_force_indices_reproducible_refuted :
  blocking_scheme 4 (Z.min 2 4) = Some (2, 0) /\
  brute_force arithZ 8 1 (fun _ => 7) 4 2 [[0]; [1]] = [(3, 7)] /\
  brute_force arithZ 8 1 (fun _ => 7) 4 2 [[1]; [0]] = [(1, 7)].
Proof. vm_compute. repeat split; reflexivity. Qed.
Print Assumptions brute_force_indices_reproducible_refuted.

(** C71.  The k-d tree holds every training sample exactly once, for every leaf size and number of threads, and no search
    can run into a null pointer (the searches below return an answer). *)
Theorem kd_tree_holds_every_sample : forall (T : Type) (N : arith T) (num fin : T -> Prop) (key : T -> R) (row : Z -> list T)
    (n : Z) (nf : nat) nth_element (leaf_size : Z) (parts : list (list Z)) (root_dim : nat),
  monotone N num fin key -> samples fin row n nf -> nth_element_contract nth_element ->
  1 <= leaf_size -> (0 < nf)%nat -> 0 < n -> Permutation (concat parts) (zrange n) -> (root_dim < nf)%nat ->
  Permutation (node_indices (build_kd N row nth_element nf leaf_size n parts root_dim)) (zrange n).
Proof.
  intros T N num fin key row n nf nth leaf parts rd M Hr Hn Hl Hf Hn0 Hp Hd.
  exact (proj2 (kd_indices N num fin key M row n nf Hr nth leaf Hn Hl Hf Hn0 parts rd Hp Hd)).
Qed.
Print Assumptions kd_tree_holds_every_sample.

(** C72.  A search with a radius returns, without repetition, samples within the radius with their distances, and returns
    every such sample whose features all differ by no more than the radius.  (Euclidean distances are compared as squares.) *)
Theorem kd_tree_radius_search : forall (T : Type) (N : arith T) (num fin : T -> Prop) (key : T -> R) (m : metric) (p p_inv : T)
    (row : Z -> list T) (n : Z) (nf : nat) nth_element (leaf_size : Z) (parts : list (list Z)) (root_dim : nat)
    (x : list T) (self : option Z) (eps : T),
  monotone N num fin key -> metric_ok N num fin key m p p_inv -> samples fin row n nf -> nth_element_contract nth_element ->
  1 <= leaf_size -> (0 < nf)%nat -> 0 < n -> Permutation (concat parts) (zrange n) -> (root_dim < nf)%nat ->
  Forall fin x -> length x = nf -> num eps -> (0 <= key eps)%R ->
  exists res, kd_radius N row m p p_inv x self eps (build_kd N row nth_element nf leaf_size n parts root_dim) = Some res /\
    NoDup (map fst res) /\
    (forall i d, In (i, d) res -> candidate n self i /\ d = distance N m p p_inv x (row i) /\
       (key d <= key (eps_internal N m eps))%R) /\
    (forall i, candidate n self i -> (key (distance N m p p_inv x (row i)) <= key (eps_internal N m eps))%R ->
       within N key nf x (row i) eps -> In (i, distance N m p p_inv x (row i)) res).
Proof.
  intros T N num fin key m p p_inv row n nf nth leaf parts rd x self eps M Hm Hr Hn Hl Hf Hn0 Hp Hd.
  exact (kd_radius_ok N num fin key M m p p_inv Hm row n nf Hr nth leaf Hn Hl Hf Hn0 parts rd Hp Hd x self eps).
Qed.
Print Assumptions kd_tree_radius_search.

(** C72.  It returns exactly the samples within the radius if the metric is not Euclidean or the square of the radius
    does not fall together with the square of a larger number. *)
Theorem kd_tree_radius_search_exact : forall (T : Type) (N : arith T) (num fin : T -> Prop) (key : T -> R) (m : metric)
    (p p_inv : T) (row : Z -> list T) (n : Z) (nf : nat) nth_element (leaf_size : Z) (parts : list (list Z)) (root_dim : nat)
    (x : list T) (self : option Z) (eps : T),
  monotone N num fin key -> metric_ok N num fin key m p p_inv -> samples fin row n nf -> nth_element_contract nth_element ->
  1 <= leaf_size -> (0 < nf)%nat -> 0 < n -> Permutation (concat parts) (zrange n) -> (root_dim < nf)%nat ->
  Forall fin x -> length x = nf -> num eps -> (0 <= key eps)%R ->
  euclid m = false \/ strict_square N num key eps ->
  exists res, kd_radius N row m p p_inv x self eps (build_kd N row nth_element nf leaf_size n parts root_dim) = Some res /\
    NoDup (map fst res) /\
    (forall i d, In (i, d) res <-> candidate n self i /\ d = distance N m p p_inv x (row i) /\
       (key d <= key (eps_internal N m eps))%R).
Proof.
  intros T N num fin key m p p_inv row n nf nth leaf parts rd x self eps M Hm Hr Hn Hl Hf Hn0 Hp Hd.
  exact (kd_radius_exact N num fin key M m p p_inv Hm row n nf Hr nth leaf Hn Hl Hf Hn0 parts rd Hp Hd x self eps).
Qed.
Print Assumptions kd_tree_radius_search_exact.

(** C72 in double precision, Euclidean and Manhattan distance, finite data and a radius between 2^-400 and 2^500: rounding
    in the tree loses no neighbour and adds none. *)
Theorem kd_tree_radius_search_doubles : forall pw (m : metric) (p p_inv : f64)
    (row : Z -> list f64) (n : Z) (nf : nat) nth_element (leaf_size : Z) (parts : list (list Z)) (root_dim : nat)
    (x : list f64) (self : option Z) (eps : f64),
  m = Euclidean \/ m = Manhattan -> samples finite row n nf -> nth_element_contract nth_element ->
  1 <= leaf_size -> (0 < nf)%nat -> 0 < n -> Permutation (concat parts) (zrange n) -> (root_dim < nf)%nat ->
  Forall finite x -> length x = nf -> finite eps -> (bpow radix2 (-400) <= key eps <= bpow radix2 500)%R ->
  exists res, kd_radius (arith64 pw) row m p p_inv x self eps
      (build_kd (arith64 pw) row nth_element nf leaf_size n parts root_dim) = Some res /\
    NoDup (map fst res) /\
    (forall i d, In (i, d) res <-> candidate n self i /\ d = distance (arith64 pw) m p p_inv x (row i) /\
       f64_le d (eps_internal (arith64 pw) m eps) = true).
Proof.
  intros pw m p p_inv row n nf nth leaf parts rd x self eps Hm Hr Hn Hl Hf Hn0 Hp Hd Hx Hxl He Heps.
  assert (Hmk : metric_ok (arith64 pw) number finite key m p p_inv) by (destruct Hm; subst; exact I).
  assert (He0 : (0 <= key eps)%R) by (apply Rle_trans with (bpow radix2 (-400)); [apply bpow_ge_0|apply Heps]).
  destruct (kd_radius_exact (arith64 pw) number finite key (doubles_monotone pw) m p p_inv Hmk row n nf Hr nth leaf Hn Hl Hf
    Hn0 parts rd Hp Hd x self eps Hx Hxl (finite_number _ He) He0) as (res & E & Nd & S).
  { right. intros b Hb Hlt. exact (double_strict_square eps b He Hb Heps Hlt). }
  exists res. split; [exact E|]. split; [exact Nd|]. intros i d. rewrite (S i d).
  assert (Hei : number (eps_internal (arith64 pw) m eps)).
  { destruct Hm; subst; cbn; [apply (m_square _ _ _ _ (doubles_monotone pw)); apply finite_number, He|apply finite_number, He]. }
  split; intros (H1 & H2 & H3); (split; [exact H1|split; [exact H2|]]).
  - apply f64_le_key; auto. subst d. apply (dist_num (arith64 pw) number finite key (doubles_monotone pw) m p p_inv Hmk row n nf Hr); auto.
    apply H1.
  - apply f64_le_key in H3; auto. subst d.
    apply (dist_num (arith64 pw) number finite key (doubles_monotone pw) m p p_inv Hmk row n nf Hr); auto. apply H1.
Qed.
Print Assumptions kd_tree_radius_search_doubles.

Example kd_tree_radius_case :
  kd_radius arithZ grid_rows Euclidean 2 2 [1; 1] (Some 2) 4
    (build_kd arithZ grid_rows nth_by_sorting 2 1 5 [[3; 4]; [0; 1; 2]] 1) = Some [(0, 2); (1, 13)] /\
  kd_radius arithZ grid_rows Manhattan 1 1 [1; 1] None 6
    (build_kd arithZ grid_rows nth_by_sorting 2 1 5 [[3; 4]; [0; 1; 2]] 1) = Some [(2, 0); (0, 2); (1, 5)].
Proof. vm_compute. split; reflexivity. Qed.
Example kd_tree_radius_case_applies :
  monotone arithZ any moderate IZR /\ metric_ok arithZ any moderate IZR Euclidean 2 2 /\ samples moderate grid_rows 5 2 /\
  nth_element_contract nth_by_sorting /\ Permutation (concat [[3; 4]; [0; 1; 2]]) (zrange 5) /\
  strict_square arithZ any IZR 4.
Proof.
  split; [exact integers_monotone|]. split; [exact I|]. split.
  { intros i Hi. assert (H : i = 0 \/ i = 1 \/ i = 2 \/ i = 3 \/ i = 4) by lia.
    unfold grid_rows. destruct H as [H|[H|[H|[H|H]]]]; subst i; (split; [reflexivity|]); repeat constructor; vm_compute; discriminate. }
  split; [exact sorting_contract|]. split; [|apply integers_strict; lia].
  cbn [concat app]. change (zrange 5) with ([0; 1; 2] ++ [3; 4]). apply (Permutation_app_comm [3; 4] [0; 1; 2]).
Qed.

(** C73, what holds: if no distance exceeds the largest finite number, the k-d tree returns [k] samples with their
    distances, none left out nearer than one returned, in the order of the distances.  Missing: distances that overflow,
    for which the claim is false. *)
Theorem kd_tree_finds_the_nearest_partial : forall (T : Type) (N : arith T) (num fin : T -> Prop) (key : T -> R) (m : metric)
    (p p_inv : T) (row : Z -> list T) (n : Z) (nf : nat) nth_element (leaf_size : Z) (parts : list (list Z)) (root_dim : nat)
    (x : list T) (k : Z),
  monotone N num fin key -> metric_ok N num fin key m p p_inv -> samples fin row n nf -> nth_element_contract nth_element ->
  1 <= leaf_size -> (0 < nf)%nat -> 0 < n -> Permutation (concat parts) (zrange n) -> (root_dim < nf)%nat ->
  Forall fin x -> length x = nf -> 0 < k <= n ->
  (forall i, 0 <= i < n -> (key (distance N m p p_inv x (row i)) <= key (highest N))%R) ->
  exists res, kd_k_neighbors N row m p p_inv x k (build_kd N row nth_element nf leaf_size n parts root_dim) = Some res /\
    k_smallest key (Z.to_nat k) (map (fun i => (i, distance N m p p_inv x (row i))) (zrange n)) res /\ ascending key res.
Proof.
  intros T N num fin key m p p_inv row n nf nth leaf parts rd x k M Hm Hr Hn Hl Hf Hn0 Hp Hd.
  exact (kd_k_ok N num fin key M m p p_inv Hm row n nf Hr nth leaf Hn Hl Hf Hn0 parts rd Hp Hd x k).
Qed.
Print Assumptions kd_tree_finds_the_nearest_partial.

(** C73 is false when squares overflow: of the samples 0, 1e200 and 2e200 the three nearest ones of 0 are reported as the
    samples 0, 0 and 1. *)
Theorem kd_tree_overflow_refuted :
  option_map (map fst) (kd_k_neighbors (arith64 pow_2) far_rows Euclidean two64 half64 [f64_of_Z 0] 3
    (build_kd (arith64 pow_2) far_rows nth_by_sorting 1 1 3 [[0; 1; 2]] 0)) = Some [0; 0; 1].
Proof. vm_compute. reflexivity. Qed.
Print Assumptions kd_tree_overflow_refuted.

Example kd_tree_nearest_case :
  kd_k_neighbors arithZ grid_rows Euclidean 2 2 [2; 2] 3
    (build_kd arithZ grid_rows nth_by_sorting 2 1 5 [[3; 4]; [0; 1; 2]] 1) = Some [(2, 2); (1, 5); (0, 8)].
Proof. vm_compute. reflexivity. Qed.

(** C74, what holds: in double precision, for Euclidean and Manhattan distance without overflow, the k-d tree and brute
    force report the same distances for every leaf size, schedule and block size.  Missing: the metric "euclidean_gemm",
    overflow, and the other algorithms. *)
Theorem algorithms_agree_partial : forall pw (m : metric) (p p_inv : f64)
    (row : Z -> list f64) (n : Z) (nf : nat) nth_element (leaf_size : Z) (parts : list (list Z)) (root_dim : nat)
    (x : list f64) (k : Z) (v : nat) (max_block : Z) (threads : list (list Z)) (n_blocks rem : Z),
  m = Euclidean \/ m = Manhattan -> samples finite row n nf -> nth_element_contract nth_element ->
  1 <= leaf_size -> (0 < nf)%nat -> 0 < n -> Permutation (concat parts) (zrange n) -> (root_dim < nf)%nat ->
  Forall finite x -> length x = nf -> 0 < k <= n ->
  (forall i, 0 <= i < n -> finite (distance (arith64 pw) m p p_inv x (row i))) ->
  0 < max_block -> blocking_scheme n (Z.min max_block n) = Some (n_blocks, rem) ->
  Permutation (concat threads) (zrange n_blocks) ->
  exists res, kd_k_neighbors (arith64 pw) row m p p_inv x k
      (build_kd (arith64 pw) row nth_element nf leaf_size n parts root_dim) = Some res /\
    same_distances key res
      (brute_force (arith64 pw) v (Z.to_nat k) (fun i => distance (arith64 pw) m p p_inv x (row i)) n max_block threads).
Proof.
  intros pw m p p_inv row n nf nth leaf parts rd x k v mb threads nb rem Hm Hr Hn Hl Hf Hn0 Hp Hd Hx Hxl Hk Hfin Hmb Hs Ht.
  assert (Hmk : metric_ok (arith64 pw) number finite key m p p_inv) by (destruct Hm; subst; exact I).
  pose proof (doubles_monotone pw) as M.
  destruct (kd_k_ok (arith64 pw) number finite key M m p p_inv Hmk row n nf Hr nth leaf Hn Hl Hf Hn0 parts rd Hp Hd x k Hx Hxl Hk)
    as (res & E & K & A).
  { intros i Hi. apply (m_highest _ _ _ _ M). auto. }
  exists res. split; [exact E|].
  destruct (brute_ok (arith64 pw) number key (lt (arith64 pw)) (le (arith64 pw)) (m_order _ _ _ _ M) v (Z.to_nat k)
    (fun i => distance (arith64 pw) m p p_inv x (row i)) n mb threads nb rem) as [B1 B2]; auto; try lia.
  { intros i Hi. apply finite_number. auto. }
  exact (smallest_keys key (Z.to_nat k) _ _ _ K A B1 B2).
Qed.
Print Assumptions algorithms_agree_partial.

(** C74 is false for "euclidean_gemm": the tree does not cut off negative squares (brute force does), and the distance
    reported for the nearest neighbour 189877886 of 189877885 is NaN. *)
Theorem tree_gemm_distance_refuted :
  option_map (fun l => map (fun e => (fst e, is_nan (snd e))) (returned (arith64 pow_2) true l))
    (kd_k_neighbors (arith64 pow_2) large_rows EuclideanGemm two64 half64 [f64_of_Z 189877885] 1
      (build_kd (arith64 pow_2) large_rows nth_by_sorting 1 30 2 [[0; 1]] 0)) = Some [(0, true)].
Proof. vm_compute. reflexivity. Qed.
Print Assumptions tree_gemm_distance_refuted.

(** C75, what holds: an algorithm chosen by the caller is kept, so that the refusal of the trees protects them; the
    automatic choice is one that would be accepted for the Euclidean, Manhattan and Minkowski metrics.  Missing: the squared
    Euclidean and the cosine distance, for which the claim is false. *)
Theorem dbscan_algorithm_fits_partial : forall a m p_small n_features,
  dbscan_accepts a m p_small = true -> a <> Automatic \/ (m <> Cosine /\ m <> SqeuclideanGemm) ->
  dbscan_accepts (dbscan_algorithm a m p_small n_features) m p_small = true.
Proof.
  intros a m ps nf Ha H. destruct a; cbn [dbscan_algorithm]; auto.
  destruct H as [H|[H1 H2]]; [contradiction|].
  destruct (nf <=? 15), ps, m; cbn; try reflexivity; try (exfalso; auto; fail).
Qed.
Print Assumptions dbscan_algorithm_fits_partial.

(** C75 is false for these: with the automatic choice the squared Euclidean and the cosine distance are handed to the k-d
    tree, which then reports neighbours beyond the radius: 16 for radius 9, and 1 for radius 0.5. *)
Theorem dbscan_automatic_refuted :
  dbscan_accepts (dbscan_algorithm Automatic SqeuclideanGemm false 1) SqeuclideanGemm false = false /\
  dbscan_accepts (dbscan_algorithm Automatic Cosine false 2) Cosine false = false /\
  option_map (map (fun e => (fst e, f64_trunc (snd e))))
    (kd_radius (arith64 pow_2) four_rows SqeuclideanGemm two64 half64 [f64_of_Z 0] (Some 0) (f64_of_Z 9)
      (build_kd (arith64 pow_2) four_rows nth_by_sorting 1 30 2 [[0; 1]] 0)) = Some [(1, 16)] /\
  option_map (map (fun e => (fst e, f64_trunc (snd e))))
    (kd_radius (arith64 pow_2) cross_rows Cosine two64 half64 (cross_rows 0) (Some 0) half64
      (build_kd (arith64 pow_2) cross_rows nth_by_sorting 2 30 2 [[0; 1]] 0)) = Some [(1, 1)].
Proof. vm_compute. repeat split; reflexivity. Qed.
Print Assumptions dbscan_automatic_refuted.
