(** What the statistics of a matrix should be, stated on its entries. *)
From Coq Require Import ZArith List Bool Permutation Reals.
From Verif Require Import Base NnModel RealArith MomModel.
Import ListNotations.
Local Open Scope Z_scope.

(** f 0 + ... + f (n-1) *)
Fixpoint total {T} (add : T -> T -> T) (zero : T) (f : Z -> T) (n : nat) : T :=
  match n with O => zero | S n' => add (total add zero f n') (f (Z.of_nat n')) end.

(** Where entry (r, c) of a matrix is stored. *)
Definition entry (o : order) (ldx r c : Z) : Z :=
  match o with column_major => c * ldx + r | row_major => r * ldx + c end.

(** The sum over the entries behind result [k]: column [k], row [k], or everything. *)
Definition slice_total {T} (add : T -> T -> T) (zero : T) (o : order) (ax : axis) (m n ldx : Z) (val : Z -> T) (k : Z) : T :=
  match ax with
  | axis_col => total add zero (fun r => val (entry o ldx r k)) (Z.to_nat m)
  | axis_row => total add zero (fun c => val (entry o ldx k c)) (Z.to_nat n)
  | axis_all => total add zero (fun r => total add zero (fun c => val (entry o ldx r c)) (Z.to_nat n)) (Z.to_nat m)
  end.
(** Address [a] holds one of the entries behind result [k]. *)
Definition behind (o : order) (ax : axis) (m n ldx k a : Z) : Prop :=
  exists r c, 0 <= r < m /\ 0 <= c < n /\ a = entry o ldx r c /\
    match ax with axis_col => c = k | axis_row => r = k | axis_all => True end.

Definition good_team (t : team) : Prop :=
  1 <= max_threads t /\ (1 <= full_team t)%nat /\ (forall l, Permutation l (atomics t l)) /\ (forall l, Permutation l (blocks t l)).
Definition good_dims (o : order) (m n ldx : Z) : Prop :=
  1 <= m /\ 1 <= n /\ match o with column_major => m | row_major => n end <= ldx.
Definition is_result (ax : axis) (m n k : Z) : Prop :=
  0 <= k < match ax with axis_col => n | axis_row => m | axis_all => 1 end.

(** Real statistics of the entries behind result [k]; [nobs] is how many there are. *)
Section Real.
Local Open Scope R_scope.
Variables (o : order) (ax : axis) (m n : Z) (ldx : Z).
Definition nobs : Z := (match ax with axis_col => m | axis_row => n | axis_all => m * n end)%Z.
Definition sum_of (g : R -> R) (X : Z -> R) (k : Z) : R := slice_total Rplus 0 o ax m n ldx (fun a => g (X a)) k.
Definition Rmean (X : Z -> R) (k : Z) : R := sum_of (fun x => x) X k / IZR nobs.
Definition Rcentral (X : Z -> R) (j : nat) (k : Z) : R := sum_of (fun x => (x - Rmean X k) ^ j) X k / IZR nobs.
(** (1/dof) sum (x - mean)^2 with the documented meaning of [dof]; the variance of one observation is 0. *)
Definition degrees (dof : Z) : Z := (if dof <? 0 then nobs else if dof =? 0 then nobs - 1 else dof)%Z.
Definition Rvariance (X : Z -> R) (dof k : Z) : R :=
  if (degrees dof =? 0)%Z then 0 else sum_of (fun x => (x - Rmean X k) ^ 2) X k / IZR (degrees dof).
Definition product_of (X : Z -> R) (k : Z) : R := slice_total Rmult 1 o ax m n ldx X k.
End Real.

(** standardize *)
Definition key (ax : axis) (r c : Z) : Z := match ax with axis_col => c | axis_row => r | axis_all => 0 end.
Definition zeros {T} (z : T) (ax : axis) (m n : Z) (a : Z -> T) : Prop := forall k, is_result ax m n k -> a k = z.
(** The caller leaves both the shift and the scale to be computed. *)
Definition to_be_computed (ax : axis) (m n : Z) (shift scale : option (Z -> R)) : Prop :=
  match shift, scale with
  | None, None => True
  | Some a, Some b => zeros 0%R ax m n a /\ zeros 0%R ax m n b
  | _, _ => False
  end.
(** The standard deviation about supplied means, with the documented meaning of [dof]. *)
Definition Rdeviation_about (o : order) (ax : axis) (m n ldx : Z) (X : Z -> R) (c : R) (dof k : Z) : R :=
  (R_sqrt.sqrt (sum_of o ax m n ldx (fun x => (x - c) ^ 2) X k / IZR (degrees ax m n dof)))%R.
