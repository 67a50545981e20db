(** What is expected of k-means. *)
From Coq Require Import ZArith Reals List Bool Permutation.
From Flocq Require Import BinarySingleNaN.
From Verif Require Import F64 NnModel KmModel.
Import ListNotations.
Local Open Scope R_scope.

(** The place [r] holds a smallest value; among several the one in the first of [w] lanes, there the first. *)
Definition smallest_in_lanes (w : nat) (vals : list R) (r : nat) : Prop :=
  (r < length vals)%nat /\
  forall j, (j < length vals)%nat ->
    nth r vals 0 < nth j vals 0 \/
    nth r vals 0 = nth j vals 0 /\ (r mod w < j mod w \/ r mod w = j mod w /\ r <= j)%nat.

(** ** Clusterings, in exact arithmetic *)
Definition rsum (l : list R) : R := fold_right Rplus 0 l.
(** the squared Euclidean distance *)
Definition sqdist (x c : list R) : R := rsum (map (fun ab => (fst ab - snd ab) * (fst ab - snd ab)) (combine x c)).
(** the sum of the squared distances of the samples to the centres of their clusters *)
Definition cost (X : list (list R)) (C : list (list R)) (ls : list nat) : R :=
  rsum (map (fun lx => sqdist (snd lx) (nth (fst lx) C [])) (combine ls X)).
(** every sample is given a cluster, and no centre is nearer than the one of this cluster *)
Definition nearest_labels (X C : list (list R)) (ls : list nat) : Prop :=
  length ls = length X /\
  forall i, (i < length X)%nat ->
    (nth i ls O < length C)%nat /\
    forall j, (j < length C)%nat -> sqdist (nth i X []) (nth (nth i ls O) C []) <= sqdist (nth i X []) (nth j C []).
(** the samples of a cluster *)
Definition members (ls : list nat) (X : list (list R)) (j : nat) : list (list R) :=
  map snd (filter (fun lx => Nat.eqb (fst lx) j) (combine ls X)).
(** the mean of some samples; [means]: the zero vector for a cluster without samples *)
Definition mean (nf : nat) (xs : list (list R)) : list R :=
  map (fun f => rsum (map (fun x => nth f x 0) xs) / INR (length xs)) (seq 0 nf).
Definition means (k nf : nat) (ls : list nat) (X : list (list R)) : list (list R) :=
  map (fun j => match members ls X j with [] => repeat 0 nf | xs => mean nf xs end) (seq 0 k).
(** samples with [nf] features *)
Definition table (nf : nat) (X : list (list R)) : Prop := forall x, In x X -> length x = nf.
(** the distribution of the blocks of samples over the threads: every block once *)
Definition good_team (n bs : nat) (t : team) : Prop :=
  match t with OneThread => True | Threads ts => Permutation (concat ts) (seq 0 (n_blocks n bs)) end.
(** cblas_gemm in exact arithmetic: the inner product times -2 *)
Definition dot (x c : list R) : R := rsum (map (fun ab => fst ab * snd ab) (combine x c)).
Definition gemm_contract (nf : nat) (prod : list R -> list R -> R) : Prop :=
  forall x c, length x = nf -> length c = nf -> prod x c = - 2 * dot x c.
(** [k] centres with [nf] features *)
Definition centres (k nf : nat) (C : list (list R)) : Prop := length C = k /\ table nf C.

(** ** Doubles *)
Definition infinity : f64 := B754_infinity false.
(** what a padding place may hold *)
Definition clean (x : f64) : Prop := is_nan x = false /\ x <> B754_infinity true.
(** the result of a run *)
Definition result_has (P : list (list f64) -> list nat -> Prop) (r : @run f64) : Prop :=
  match r with EmptyCluster => False | Finished C ls _ _ => P C ls end.

(** ** Blocks *)
(** [c] numbers from [s] on *)
Definition numbers (s c : Z) : list Z := map (fun i => (s + Z.of_nat i)%Z) (seq 0 (Z.to_nat c)).
(** calls for [(first sample, number of samples)] that treat every sample exactly once *)
Definition every_sample_once (n : Z) (calls : list (Z * Z)) : Prop :=
  Permutation (flat_map (fun r => numbers (fst r) (snd r)) calls) (numbers 0 n).
(** the blocks [0 .. m - 1], each given to one thread *)
Definition every_block_once (m : Z) (ts : list (list Z)) : Prop := Permutation (concat ts) (numbers 0 m).
(** a thread is given its blocks in increasing order (schedule modifier monotonic) *)
Fixpoint increasing (l : list Z) : Prop := match l with [] => True | x :: l => (forall y, In y l -> (x < y)%Z) /\ increasing l end.
(** the Euclidean distance *)
Definition edist (x c : list R) : R := R_sqrt.sqrt (sqdist x c).
