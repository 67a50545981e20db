(** What a prediction from neighbours and the results of a radius search have to be. *)
From Coq Require Import ZArith List Bool Reals Permutation.
From Flocq Require Import Core BinarySingleNaN.
From Verif Require Import Base Par F64 NnModel.
Import ListNotations.
Local Open Scope Z_scope.

(** The number of neighbours with label [l]; [y]: the labels of the training samples. *)
Definition votes_for (y : list Z) (nb : list (Z * f64)) (l : Z) : Z :=
  Z.of_nat (length (filter (fun e => nth (Z.to_nat (fst e)) y 0 =? l) nb)).
(** The neighbours are training samples. *)
Definition among (y : list Z) (nb : list (Z * f64)) : Prop := Forall (fun e => 0 <= fst e < Z.of_nat (length y)) nb.
(** [l] is the label most neighbours have, and the smallest of these. *)
Definition majority (y : list Z) (nb : list (Z * f64)) (l : Z) : Prop :=
  0 < votes_for y nb l /\
  forall l', votes_for y nb l' <= votes_for y nb l /\ (votes_for y nb l' = votes_for y nb l -> l <= l').
(** Enough neighbours and not more than a double can count *)
Definition countable (nb : list (Z * f64)) : Prop := 0 < Z.of_nat (length nb) <= 2 ^ 50.
(** [l] is the most frequent element of [x], the smallest of these. *)
Definition most_frequent (x : list Z) (l : Z) : Prop :=
  In l x /\ forall l', (count_occ Z.eq_dec x l' <= count_occ Z.eq_dec x l)%nat /\
    (count_occ Z.eq_dec x l' = count_occ Z.eq_dec x l -> l <= l').
(** The labels of the training samples are 0, 1, ... without a gap. *)
Definition without_gap (y : list Z) : Prop := forall l, In l y -> 0 <= l /\ forall l', 0 <= l' < l -> In l' y.
(** The label for one query of a radius search; [other]: for queries without neighbours *)
Definition radius_label_ok (y : list Z) (other : Z) (nb : list (Z * f64)) (l : Z) : Prop :=
  match nb with [] => l = other | _ => majority y nb l end.
(** Part of an array *)
Definition slice {A} (l : list A) (at_ n : Z) : list A := firstn (Z.to_nat n) (skipn (Z.to_nat at_) l).
(** All samples within the radius *)
Definition within (D : Z -> f64) (r : f64) (n : Z) : list (Z * f64) :=
  filter (fun e => f64_le (snd e) r) (map (fun i => (i, D i)) (zrange n)).
(** The distances a caller gets for the distances [ds] of a search; [roots]: they are squares. *)
Definition given (roots : bool) (ds : list f64) : list f64 := if roots then map f64_sqrt ds else ds.
