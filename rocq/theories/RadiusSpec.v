(** What a radius search returns. *)
From Coq Require Import ZArith Reals List Permutation.
From Verif Require Import Base Par RadiusModel.
Local Open Scope Z_scope.

(** [close i j], for [i < j]: the samples are within the radius. *)
Definition radius_lists (n : Z) (close : Z -> Z -> Prop) (lists : Z -> list Z) : Prop :=
  forall i, 0 <= i < n ->
    NoDup (lists i) /\
    forall j, In j (lists i) <-> 0 <= j < n /\ j <> i /\ close (Z.min i j) (Z.max i j).

(** The blocks are distributed over the threads, each to one of them. *)
Definition distributed (blocks : list Z) (work : list (list Z)) : Prop := Permutation (concat work) blocks.

(** Distances, exact: the squared Euclidean distance is the square of the Euclidean distance, which is also
    the Minkowski distance if the power is 2 ([two]); [dist] is symmetric. *)
Definition distances (two : bool) (dist : metric -> Z -> Z -> R) : Prop :=
  (forall m i j, dist m i j = dist m j i) /\
  (forall i j, 0 <= dist euclidean_gemm i j)%R /\
  (forall i j, dist sqeuclidean_gemm i j = dist euclidean_gemm i j * dist euclidean_gemm i j)%R /\
  (two = true -> forall i j, dist minkowski i j = dist euclidean_gemm i j).

(** The other samples within the radius, and samples with enough of them ([min_samples] counts the sample
    itself). *)
Definition within (n : Z) (close : Z -> Z -> Prop) (i j : Z) : Prop := 0 <= j < n /\ j <> i /\ close i j.
Definition enough (n : Z) (close : Z -> Z -> Prop) (min_samples i : Z) : Prop :=
  exists l, NoDup l /\ (forall j, In j l -> within n close i j) /\ min_samples <= 1 + Z.of_nat (length l).
