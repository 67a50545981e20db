(** What users of decision forests rely on. *)
From Coq Require Import ZArith List Bool Permutation Reals.
From Verif Require Import Base Par F64 ForestModel.
Import ListNotations.
Local Open Scope Z_scope.

(** the trees that vote for class [c] *)
Definition votes (vote : Z -> Z -> Z) (n_tree s c : Z) : Z :=
  Z.of_nat (length (filter (fun t => vote t s =? c) (zrange n_tree))).
(** the class with most votes, the smallest one if there are several *)
Definition majority (vote : Z -> Z -> Z) (n_tree n_class s c : Z) : Prop :=
  0 <= c < n_class /\
  forall k, 0 <= k < n_class ->
    votes vote n_tree s k <= votes vote n_tree s c /\ (k < c -> votes vote n_tree s k < votes vote n_tree s c).

(** The iterations [its] are divided between at most [n_threads] threads in any way, and each thread does its own in any
    order.  Threads without iterations need not be listed. *)
Definition team (n_threads : Z) (its : list (Z * Z)) (sched : list (list (Z * Z))) : Prop :=
  Z.of_nat (length sched) <= n_threads /\ Permutation its (concat sched).

(** the right predictions *)
Definition right (pred y : Z -> Z) (nsamp : Z) : Z :=
  Z.of_nat (length (filter (fun i => pred i =? y i) (zrange nsamp))).

(** The sum of the probabilities, divided by the number of trees and by the sum of that over the classes *)
Definition normalised (n_tree n_class : Z) (sum : Z -> f64) (j : Z) : f64 :=
  let mean j := f64_div (sum j) (f64_of_Z n_tree) in
  f64_div (mean j) (fold_left (fun a j => f64_add a (mean j)) (zrange n_class) (f64_of_Z 0)).
Definition sum_in_order (l : list f64) : f64 := fold_left f64_add l (f64_of_Z 0).

(** Trees whose leaves hold one class only *)
Definition pure (proba : Z -> Z -> Z -> f64) (vote : Z -> Z -> Z) : Prop :=
  forall t s j, proba t s j = f64_of_Z (if vote t s =? j then 1 else 0).

(** the sum of a function over 0 .. n-1 *)
Definition sum_below (f : Z -> Z) (n : Z) : Z := fold_left (fun a i => a + f i) (zrange n) 0.
