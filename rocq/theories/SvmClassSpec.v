(** What several classes and probabilities should mean. *)
From Coq Require Import QArith List Arith.
From Verif Require Import SvmModel SvmClassModel.
Import ListNotations.
Local Open Scope Q_scope.

(** Class [i] beats class [j] in the classifier of the two. *)
Definition beats (d : values) (i j : nat) : Prop :=
  ((i < j)%nat /\ 0 < d i j) \/ ((j < i)%nat /\ d j i <= 0).
Definition won (nc : nat) (d : values) (c n : nat) : Prop :=
  exists l, NoDup l /\ (forall o, In o l <-> (o < nc)%nat /\ beats d c o) /\ length l = n.

Definition favourite (nc : nat) (d : values) (c : nat) : Prop :=
  (c < nc)%nat /\ forall o n m, (o < nc)%nat -> won nc d c n -> won nc d o m -> (m <= n)%nat.

Definition distribution (nc : nat) (p : vec) : Prop :=
  (forall t, (t < nc)%nat -> 0 < p t) /\ sum p (seq 0 nc) == 1.

(** The quantity to minimise (Wu, Lin and Weng, second method): pairwise
    probabilities against the ratio of the class probabilities. *)
Definition mismatch (r : nat -> nat -> Q) (nc : nat) (p : vec) : Q :=
  sum (fun t => sum (fun j => if (j =? t)%nat then 0
     else (r j t * p t - r t j * p j) * (r j t * p t - r t j * p j)) (seq 0 nc)) (seq 0 nc).

(** [r j l] is the probability of class [j] against class [l]: the value of the
    sigmoid of the pair kept away from 0 and 1 by 1e-7; those of a pair add up to 1. *)
Definition pair_probabilities (s r : nat -> nat -> Q) (nc : nat) : Prop :=
  forall j l, (j < l)%nat -> (l < nc)%nat ->
    r j l + r l j == 1 /\
    (s j l < 1 # 10000000 -> r j l == 1 # 10000000) /\
    (1 # 10000000 <= s j l <= 9999999 # 10000000 -> r j l == s j l) /\
    (9999999 # 10000000 < s j l -> r j l == 9999999 # 10000000).
