(** What quantiles are: order statistics at the documented positions. *)
From Coq Require Import ZArith Reals List Permutation.
From Flocq Require Import Core IEEE754.BinarySingleNaN.
From Verif Require Import Base Par F64 SplitModel SplitSpec QuantModel.
Import ListNotations.
Local Open Scope Z_scope.

(** ** Contracts of the standard library *)
(** A comparison by which data can be sorted: any two elements compare, transitively.  (NaN does not.) *)
Definition preorder {T : Type} (leb : T -> T -> bool) : Prop :=
  (forall x y, leb x y = true \/ leb y x = true) /\
  (forall x y z, leb x y = true -> leb y z = true -> leb x z = true).
Definition selects {T : Type} (leb : T -> T -> bool) (nth_element : list T -> nat -> list T) : Prop :=
  forall l k, (k < length l)%nat ->
    Permutation l (nth_element l k) /\
    forall i x v, nth_error (nth_element l k) k = Some v -> nth_error (nth_element l k) i = Some x ->
      ((i < k)%nat -> leb x v = true) /\ ((k < i)%nat -> leb v x = true).
Definition sorts (sort : list f64 -> list nat) : Prop :=
  forall h, Forall (fun x => is_finite x = true) h ->
    Permutation (sort h) (seq 0 (length h)) /\
    forall i j a b, (i < j)%nat -> nth_error (sort h) i = Some a -> nth_error (sort h) j = Some b ->
      f64_lt (nth b h (f64_of_Z 0)) (nth a h (f64_of_Z 0)) = false.

(** ** Order statistics *)
Definition count {T : Type} (f : T -> bool) (l : list T) : Z := Z.of_nat (length (filter f l)).
(** [v] is at position [k] (from 0) when [l] is sorted. *)
Definition is_kth {T : Type} (leb : T -> T -> bool) (l : list T) (k : Z) (v : T) : Prop :=
  In v l /\ count (fun x => ltb T leb x v) l <= k < count (fun x => leb x v) l.

(** A quantile that can be asked for. *)
Definition unit_q (q : f64) : Prop := exists r, is q r /\ (0 <= r <= 1)%R.
(** The documented fractional index for the quantile [q], computed in double precision: [rnd] rounds to
    the nearest double.  (aoclda_basic_statistics.h:64-74) *)
Definition rounded_index (t : quantile_type) (len : Z) (q : R) : R :=
  (match t with
   | Q1 | Q4 => rnd (IZR len * q)
   | Q2 | Q5 => rnd (rnd (IZR len * q) + / 2)
   | Q3 => rnd (rnd (IZR len * q) - / 2)
   | Q6 => rnd (IZR (len + 1) * q)
   | Q7 => rnd (rnd (IZR (len - 1) * q) + 1)
   | Q8 => rnd (rnd (rnd (IZR len + rnd (/ 3)) * q) + rnd (/ 3))
   | Q9 => rnd (rnd (rnd (IZR len + / 4) * q) + 3 / 8)
   | QOther => 0
   end)%R.
(** The documented positions, counted from 1, for the fractional index [y]
    (aoclda_basic_statistics.h:64-74). *)
Definition documented (t : quantile_type) (y : R) (i j : Z) : Prop :=
  match t with
  | Q1 => i = Zceil y /\ j = i
  | Q2 => i = Zceil (y - / 2) /\ j = Zfloor (y + / 2)
  | Q3 => (Rabs (IZR i - y) <= / 2)%R /\ j = i
  | QOther => False
  | _ => i = Zfloor y /\ j = Zceil y
  end.
(** Positions before the first or after the last element are moved to it. *)
Definition within (len k : Z) : Z := Z.max 1 (Z.min len k).
(** [v] is the quantile of type [t] with fractional index [y]. *)
Definition quantile_value {T : Type} (leb : T -> T -> bool) (mean : T -> T -> T)
    (interp : f64 -> Z -> T -> T -> T) (t : quantile_type) (y : R) (l : list T) (v : T) : Prop :=
  let len := Z.of_nat (length l) in
  exists i j a b, documented t y i j /\
    is_kth leb l (within len i - 1) a /\ is_kth leb l (within len j - 1) b /\
    if Z.eq_dec (within len i) (within len j) then v = a
    else match t with
         | Q2 => v = mean a b
         | Q1 | Q3 => False
         | _ => exists h, is h (y - 1) /\ 1 <= i <= len /\ v = interp h (i - 1) a b
         end.

(** ** The arrays *)
Definition lane {T : Type} (o : order) (a : axis) (n p : Z) (X : Z -> T) (ldx i : Z) : list T :=
  match a with
  | axis_col => map (fun r => X (pos o ldx r i)) (zrange n)
  | axis_row => map (fun c => X (pos o ldx i c)) (zrange p)
  | _ => flat_map (fun r => map (fun c => X (pos o ldx r c)) (zrange p)) (zrange n)
  end.
Definition lanes (a : axis) (n p : Z) : Z :=
  match a with axis_col => p | axis_row => n | _ => 1 end.
Definition lane_length (a : axis) (n p : Z) : Z :=
  match a with axis_col => n | axis_row => p | _ => n * p end.
(** Leading dimension of the results. *)
Definition ld_out (o : order) (a : axis) (n p n_q : Z) : Z :=
  match o with row_major => lanes a n p | _ => n_q end.
Definition valid_matrix (o : order) (n p ldx : Z) : Prop :=
  1 <= n /\ 1 <= p /\ match o with row_major => p <= ldx | column_major => n <= ldx | other_order => False end.

(** ** Sorting functions to run the model with *)
Fixpoint insert {A : Type} (le : A -> A -> bool) (x : A) (l : list A) : list A :=
  match l with
  | [] => [x]
  | y :: l' => if le x y then x :: l else y :: insert le x l'
  end.
Fixpoint isort {A : Type} (le : A -> A -> bool) (l : list A) : list A :=
  match l with
  | [] => []
  | x :: l' => insert le x (isort le l')
  end.
Definition sort_indices (h : list f64) : list nat :=
  isort (fun i j => negb (f64_lt (nth j h (f64_of_Z 0)) (nth i h (f64_of_Z 0)))) (seq 0 (length h)).
