(** C42: brute force radius search. *)
From Coq Require Import ZArith Reals Lia Lra List Bool.
From Verif Require Import Base Par UtilModel DbscanModel DbscanSpec RadiusModel RadiusSpec RadiusProofs.
Import ListNotations.
Local Open Scope Z_scope.

(** The blocks visit every pair of samples once: whatever the comparison and however the blocks are
    distributed over the threads, the lists are those of a radius search. *)
Theorem radius_blocks_complete n near requested work :
  1 <= n <= 2 ^ 33 -> distributed (all_blocks n) work -> requested <= Z.of_nat (length work) ->
  exists lists, radius_neighbors_brute n near requested work = Some lists /\
    radius_lists n (fun i j => near i j = true) lists.
Proof. exact (radius_spec n near requested work). Qed.
Print Assumptions radius_blocks_complete.

(** C42, for exact distances.  Missing: the Minkowski metric with power 2, teams smaller than
    requested (below), and the rounding of the distances. *)
Theorem radius_search_partial dist m two eps n requested work :
  distances two dist -> (0 <= eps)%R -> is_minkowski m = false \/ two = false ->
  1 <= n <= 2 ^ 33 -> distributed (all_blocks n) work -> requested <= Z.of_nat (length work) ->
  exists lists, radius_neighbors_brute n (near_by dist m two eps) requested work = Some lists /\
    radius_lists n (fun i j => (dist m i j <= eps)%R) lists.
Proof.
  intros D E M N W R. destruct (radius_spec n (near_by dist m two eps) requested work N W R) as (l & El & L).
  exists l. split; auto. revert L. apply radius_lists_ext. intros i j _ _. apply near_by_spec; auto.
Qed.
Print Assumptions radius_search_partial.

(** Radius search followed by the serial clustering: the clusters of the samples within the radius. *)
Theorem dbscan_brute_serial_partial dist m two eps n requested work min_samples :
  distances two dist -> (0 <= eps)%R -> is_minkowski m = false \/ two = false ->
  1 <= n <= 2 ^ 33 -> distributed (all_blocks n) work -> requested <= Z.of_nat (length work) ->
  exists lists lab k, radius_neighbors_brute n (near_by dist m two eps) requested work = Some lists /\
    dbscan_clusters_serial n lists min_samples = Some (lab, k) /\
    clustering n (within n (fun i j => (dist m i j <= eps)%R)) (enough n (fun i j => (dist m i j <= eps)%R) min_samples) lab k.
Proof.
  intros D E M N W R. destruct (radius_search_partial dist m two eps n requested work D E M N W R) as (l & El & L).
  assert (Sy : forall i j, (dist m i j <= eps)%R <-> (dist m j i <= eps)%R) by (intros i j; rewrite (proj1 D m i j); tauto).
  destruct (dbscan_of_radius n _ l min_samples Sy L) as (lab & k & E1 & C).
  exists l, lab, k. auto.
Qed.
Print Assumptions dbscan_brute_serial_partial.

(** Two samples, 0 and 2, on a line. *)
Definition line_dist (x : Z -> R) (m : metric) (i j : Z) : R :=
  match m with
  | sqeuclidean | sqeuclidean_gemm => (x i - x j) * (x i - x j)
  | _ => Rabs (x i - x j)
  end.
Lemma line_distances x two : distances two (line_dist x).
Proof.
  repeat split; intros; cbn.
  - destruct m; cbn; try ring; rewrite <- Rabs_Ropp; f_equal; ring.
  - apply Rabs_pos.
  - rewrite <- Rabs_mult. symmetry. apply Rabs_pos_eq, Rle_0_sqr.
Qed.
Definition two_samples (i : Z) : R := if i =? 0 then 0%R else 2%R.
(** C42 is false for the Minkowski metric with power 2: the distance is squared, the radius is not.  The
    samples are at distance 2, the radius is 2, and the lists are empty. *)
Theorem minkowski_two_refuted :
  exists dist lists, distances true dist /\ (dist minkowski 0%Z 1%Z <= 2)%R /\
    radius_neighbors_brute 2 (near_by dist minkowski true 2) 1 [[0]] = Some lists /\ lists 0 = [] /\ lists 1 = [].
Proof.
  exists (line_dist two_samples).
  assert (F : forall i j, i <> j -> 0 <= i < 2 -> 0 <= j < 2 -> near_by (line_dist two_samples) minkowski true 2 i j = false).
  { intros i j Ne Hi Hj. unfold near_by, metric_internal, eps_internal. cbn -[Rle_dec].
    destruct (Rle_dec _ _) as [H|]; auto. exfalso. unfold two_samples in H.
    destruct (Z.eqb_spec i 0), (Z.eqb_spec j 0); try lia; lra. }
  destruct (radius_spec 2 (near_by (line_dist two_samples) minkowski true 2) 1 [[0]]) as (l & E & L).
  - lia.
  - vm_compute. constructor. constructor.
  - cbn. lia.
  - exists l. split; [apply line_distances|]. split.
    { cbn. rewrite Rabs_left; lra. }
    split; auto.
    assert (Em : forall i, 0 <= i < 2 -> l i = []).
    { intros i Hi. destruct (l i) as [|j t] eqn:El; auto. exfalso. destruct (L i Hi) as (_ & I).
      destruct (proj1 (I j)) as (A & B & C); [rewrite El; left; auto|]. rewrite F in C; try discriminate; lia. }
    split; apply Em; lia.
Qed.
Print Assumptions minkowski_two_refuted.

(** If OpenMP provides fewer threads than requested, the lists of a thread that does not exist are read. *)
Theorem radius_small_team_refuted n near requested work : 1 <= n -> Z.of_nat (length work) < requested ->
  radius_neighbors_brute n near requested work = None.
Proof. exact (small_team n near requested work). Qed.
Print Assumptions radius_small_team_refuted.

(** 515 samples on a line, three blocks a side, three threads. *)
Definition on_line (i j : Z) : bool := j - i <=? 2.
Example radius_case :
  distributed (all_blocks 515) [[0; 3]; [1; 2]; [5; 4]] /\ all_blocks 515 = zrange 6 /\
  map block_indices [0; 1; 2; 3; 4; 5; 9] = [(0, 0); (0, 1); (1, 1); (0, 2); (1, 2); (2, 2); (3, 3)] /\
  option_map (fun l => (l 0, l 255, l 514)) (radius_neighbors_brute 515 on_line 3 [[0; 3]; [1; 2]; [5; 4]])
    = Some ([1; 2], [253; 254; 256; 257], [512; 513]).
Proof.
  assert (E : all_blocks 515 = zrange 6) by (vm_compute; reflexivity).
  split; [|split; [exact E|split; vm_compute; reflexivity]].
  unfold distributed. rewrite E. apply Permutation.NoDup_Permutation.
  - repeat constructor; cbn; intuition discriminate.
  - apply zrange_nodup.
  - intros x. rewrite in_zrange. cbn. lia.
Qed.
