(** What it means to sort a part of an array. *)
From Coq Require Import ZArith List Bool Permutation.
From Verif Require Import Base Par.
Import ListNotations.
Local Open Scope Z_scope.

(** The elements at positions [start .. start + n - 1]. *)
Definition slice {E} (a : Z -> E) (start n : Z) : list E := map (fun i => a (start + i)) (zrange n).

(** [b] has in that range the elements [a] has, each as often, and is [a] elsewhere. *)
Definition rearranged {E} (start n : Z) (a b : Z -> E) : Prop :=
  Permutation (slice a start n) (slice b start n) /\
  forall i, ~ start <= i < start + n -> b i = a i.

(** No value of the range is less than one before it. *)
Definition ordered {V} (lt : V -> V -> bool) (start n : Z) (b : Z -> Z * V) : Prop :=
  forall i j, start <= i <= j -> j < start + n -> lt (snd (b j)) (snd (b i)) = false.

(** The comparison orders the values with [P] (as it does for doubles other than NaN). *)
Record orders {V} (lt : V -> V -> bool) (P : V -> Prop) : Prop := {
  ord_asym : forall x y, P x -> P y -> lt x y = true -> lt y x = false;
  ord_trans : forall x y z, P x -> P y -> P z -> lt x y = false -> lt y z = false -> lt x z = false }.

(** The values in the range all have [P]. *)
Definition range_all {V} (P : V -> Prop) (start n : Z) (a : Z -> Z * V) : Prop :=
  forall i, start <= i < start + n -> P (snd (a i)).

(** [l] without repetitions, in increasing order *)
Definition increasing (f : Z -> Z) (n : Z) : Prop := forall i j, 0 <= i < j -> j < n -> f i < f j.
Definition nondecreasing (f : Z -> Z) (n : Z) : Prop := forall i j, 0 <= i <= j -> j < n -> f i <= f j.
(** std::sort on integers *)
Definition sorts (sort : (Z -> Z) -> Z -> Z -> Z) : Prop :=
  forall f n, 0 <= n -> rearranged 0 n f (sort f n) /\ nondecreasing (sort f n) n.

(** The elements of [l] category by category, keeping the order within a category; the value of an element
    becomes its category. *)
Definition by_category {V} (round : V -> Z) (of_int : Z -> V) (n_cat : Z) (l : list (Z * V)) : list (Z * V) :=
  flat_map (fun c => map (fun e => (fst e, of_int c)) (filter (fun e => round (snd e) =? c) l)) (zrange n_cat).
