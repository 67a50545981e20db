(** What a cubic spline is. *)
From Coq Require Import QArith List Arith.
From Verif Require Import SplineModel.
Import ListNotations.
Local Open Scope Q_scope.

Definition increasing (n : nat) (s : nat -> Q) : Prop :=
  forall i, (i + 1 < n)%nat -> s i < s (i + 1)%nat.

(** The cell of a point: the first and the last one extend to infinity. *)
Definition right_cell (n : nat) (s : nat -> Q) (x : Q) (c : nat) : Prop :=
  (c < n - 1)%nat /\ ((0 < c)%nat -> s c <= x) /\ ((c < n - 2)%nat -> x < s (c + 1)%nat).

(** Steps of the sites and of the values. *)
Definition steps (n : nat) (s h : nat -> Q) : Prop :=
  forall i, (i + 1 < n)%nat -> h i == s (i + 1)%nat - s i.

(** A list of numbers that are the derivatives of order 0 to 3 of a cubic
    polynomial [f] at [t]: its Taylor expansion. *)
Definition derivatives (f : nat -> Q -> Q) : Prop :=
  forall t e, f 0%nat (t + e) == f 0%nat t + e * f 1%nat t + e * e / 2 * f 2%nat t + e * e * e / 6 * f 3%nat t.

(** Pieces [p] on the sites [s] pass through the values. *)
Definition interpolates (n : nat) (s y : nat -> Q) (p : nat -> piece) : Prop :=
  forall i, (i + 1 < n)%nat -> eval 0 (p i) 0 == y i /\ eval 0 (p i) (s (i + 1)%nat - s i) == y (i + 1)%nat.

(** Neighbouring pieces have the same derivative of order [k] at their common
    site. *)
Definition joins (k n : nat) (s : nat -> Q) (p : nat -> piece) : Prop :=
  forall i, (i + 2 < n)%nat -> eval k (p i) (s (i + 1)%nat - s i) == eval k (p (i + 1)%nat) 0.

(** Derivatives at the ends. *)
Definition left_end (k : nat) (p : nat -> piece) (v : Q) : Prop := eval k (p 0%nat) 0 == v.
Definition right_end (k n : nat) (s : nat -> Q) (p : nat -> piece) (v : Q) : Prop :=
  eval k (p (n - 2)%nat) (s (n - 1)%nat - s (n - 2)%nat) == v.
Definition boundary (k : kind) (n : nat) (s : nat -> Q) (p : nat -> piece) : Prop :=
  match k with
  | natural => left_end 2 p 0 /\ right_end 2 n s p 0
  | clamped => left_end 1 p 0 /\ right_end 1 n s p 0
  | custom lo lv ro rv => left_end lo p lv /\ right_end ro n s p rv
  end.
(* set_boundary_conditions accepts 1 and 2 only. *)
Definition orders_ok (k : kind) : Prop :=
  match k with custom lo _ ro _ => (lo = 1 \/ lo = 2)%nat /\ (ro = 1 \/ ro = 2)%nat | _ => True end.

(** The spline asked for. *)
Definition is_spline (k : kind) (n : nat) (s y : nat -> Q) (p : nat -> piece) : Prop :=
  interpolates n s y p /\ joins 1 n s p /\ joins 2 n s p /\ boundary k n s p.

(** A cubic polynomial, its first and second derivative. *)
Definition cubic (a b c d x : Q) : Q := d + x * (c + x * (b + x * a)).
Definition cubic1 (a b c x : Q) : Q := c + x * (2 * b + x * (3 * a)).
Definition cubic2 (a b x : Q) : Q := 2 * b + 6 * a * x.

(** Entry of a user's matrix of values with leading dimension [ld]. *)
Definition user_value (row_major : bool) (ld : nat) (y : nat -> Q) (i d : nat) : Q :=
  if row_major then y (i * ld + d)%nat else y (d * ld + i)%nat.

(** Derivative of order 1 or 2 of the polynomial. *)
Definition slope (order : nat) (a b c x : Q) : Q := if (order =? 1)%nat then cubic1 a b c x else cubic2 a b x.

(** The polynomial, expanded at each site. *)
Definition expansion (a b c d : Q) (s : nat -> Q) (i : nat) : piece :=
  Piece a (b + 3 * a * s i) (cubic1 a b c (s i)) (cubic a b c d (s i)).
