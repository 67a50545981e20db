(** C40, C41: DBSCAN clusters. *)
From Coq Require Import ZArith Lia List Bool Relations.
From Verif Require Import Base Par UtilModel DbscanModel DbscanSpec DbscanProofs DbscanParProofs.
Import ListNotations.
Local Open Scope Z_scope.

(** C40.  The serial method ends, and its labels are the density-based clustering, for all neighbour lists
    and all values of min_samples. *)
Theorem serial_dbscan_correct n nb min_samples : neighbour_lists n nb ->
  exists lab k, dbscan_clusters_serial n nb min_samples = Some (lab, k) /\
    clustering n (fun i j => In j (nb i)) (fun i => min_samples - 1 <= Z.of_nat (length (nb i))) lab k.
Proof.
  intros H. destruct (serial_clustering n nb min_samples H) as (lab & k & E & Cl). exists lab, k. split; auto.
  exact (clustering_dense n _ _ _ lab k (fun i => Z.leb_le _ _) Cl).
Qed.
Print Assumptions serial_dbscan_correct.

(** C41, the part that holds: under every interleaving of the parallel loop the method ends, labels the same
    samples as noise, numbers the clusters without gaps, and samples with the same label are linked.
    Missing: linked core samples may have different labels, and samples linked only through a
    sample that is not a core sample the same one. *)
Theorem parallel_dbscan_partial n nb min_samples tr :
  neighbour_lists n nb -> interleaving (first_loop n nb min_samples) tr ->
  exists lab k, dbscan_clusters_parallel n tr = Some (lab, k) /\
    labelled_samples n (fun i j => In j (nb i)) (fun i => min_samples - 1 <= Z.of_nat (length (nb i))) lab k /\
    (forall x y, sample n x -> sample n y -> lab x <> -1 -> lab x = lab y ->
       linked n (fun i j => In j (nb i)) (fun i => min_samples - 1 <= Z.of_nat (length (nb i))) x y).
Proof.
  intros H I. destruct (parallel_spec n nb min_samples H tr I) as (lab & k & E & L & K). exists lab, k. split; auto.
  split; [exact (labelled_dense n _ _ _ lab k (fun i => Z.leb_le _ _) L)|].
  intros x y Sx Sy Nx Exy. exact (linked_dense n _ _ _ (fun i => Z.leb_le _ _) x y (K x y Sx Sy Nx Exy)).
Qed.
Print Assumptions parallel_dbscan_partial.

(** The samples 0, 2, 1 on a line, radius 1, min_samples 2: all are core samples of one cluster. *)
Definition nb_split (i : Z) : list Z := nth (Z.to_nat i) [[2]; [2]; [0; 1]] [].
(** C41 is false: the iterations run in order give two clusters. *)
Theorem parallel_splits_cluster_refuted :
  exists tr, interleaving (first_loop 3 nb_split 2) tr /\ neighbour_lists 3 nb_split /\
    option_map (fun r => (map (fst r) [0; 1; 2], snd r)) (dbscan_clusters_serial 3 nb_split 2) = Some ([0; 0; 0], 1) /\
    option_map (fun r => (map (fst r) [0; 1; 2], snd r)) (dbscan_clusters_parallel 3 tr) = Some ([0; 1; 0], 2).
Proof.
  exists (concat (first_loop 3 nb_split 2)). split; [apply interleaving_seq|].
  split; [apply neighbour_lists_b_ok; vm_compute; reflexivity|]. split; vm_compute; reflexivity.
Qed.
Print Assumptions parallel_splits_cluster_refuted.

(** The samples 0, 1, 2, -0.5, -0.6, 2.5, 2.6 on a line, radius 1, min_samples 4: the samples 0 and 2 are the
    core samples, in clusters of their own; sample 1 is within the radius of both. *)
Definition nb_merge (i : Z) : list Z :=
  nth (Z.to_nat i) [[1; 3; 4]; [0; 2]; [1; 5; 6]; [0; 4]; [0; 3]; [2; 6]; [2; 5]] [].
Theorem parallel_merges_clusters_refuted :
  exists tr, interleaving (first_loop 7 nb_merge 4) tr /\ neighbour_lists 7 nb_merge /\
    option_map (fun r => (map (fst r) [0; 1; 2; 3; 4; 5; 6], snd r)) (dbscan_clusters_serial 7 nb_merge 4)
      = Some ([0; 0; 1; 0; 0; 1; 1], 2) /\
    option_map (fun r => (map (fst r) [0; 1; 2; 3; 4; 5; 6], snd r)) (dbscan_clusters_parallel 7 tr)
      = Some ([0; 0; 0; 0; 0; 0; 0], 1).
Proof.
  exists (concat (first_loop 7 nb_merge 4)). split; [apply interleaving_seq|].
  split; [apply neighbour_lists_b_ok; vm_compute; reflexivity|]. split; vm_compute; reflexivity.
Qed.
Print Assumptions parallel_merges_clusters_refuted.

(** ** Examples *)
(** Two clusters, a sample on the border of both, a noise sample. *)
Definition nb_ex (i : Z) : list Z :=
  nth (Z.to_nat i) [[2]; [3; 4; 6]; [0]; [1; 4; 6]; [1; 3; 5]; [4; 7]; [3; 1]; [5; 8; 9]; [7; 9]; [8; 7]; []] [].
Example ex_neighbours : neighbour_lists 11 nb_ex.
Proof. apply neighbour_lists_b_ok. vm_compute. reflexivity. Qed.
Example ex_serial :
  option_map (fun r => (map (fst r) (zrange 11), snd r)) (dbscan_clusters_serial 11 nb_ex 4)
  = Some ([-1; 0; -1; 0; 0; 0; 0; 1; 1; 1; -1], 2).
Proof. vm_compute. reflexivity. Qed.
Example ex_parallel :
  option_map (fun r => map (fst r) (zrange 11)) (dbscan_clusters_parallel 11 (concat (first_loop 11 nb_ex 4)))
  = Some [-1; 0; -1; 0; 0; 0; 0; 0; 0; 0; -1].
Proof. vm_compute. reflexivity. Qed.
