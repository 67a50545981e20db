(** What covariances and correlations are, on the entries x k j (row k, column j) of the data. *)
From Coq Require Import ZArith Reals.
From Verif Require Import MomModel MomSpec.
Local Open Scope R_scope.

Definition Rsum (f : Z -> R) (n : Z) : R := total Rplus 0 f (Z.to_nat n).
Definition col_mean (x : Z -> Z -> R) (n j : Z) : R := Rsum (fun k => x k j) n / IZR n.
(** the sum of the products of the deviations of columns [i] and [j] *)
Definition co_deviation (x : Z -> Z -> R) (n i j : Z) : R :=
  Rsum (fun k => (x k i - col_mean x n i) * (x k j - col_mean x n j)) n.
(** the documented divisor *)
Definition dof_of (n dof : Z) : Z := (if dof <? 0 then n else if dof =? 0 then n - 1 else dof)%Z.
Definition Rcov (x : Z -> Z -> R) (n dof i j : Z) : R := co_deviation x n i j / IZR (dof_of n dof).
(** without centring *)
Definition Rcov0 (x : Z -> Z -> R) (n dof i j : Z) : R := Rsum (fun k => x k i * x k j) n / IZR (dof_of n dof).
Definition constant_col (x : Z -> Z -> R) (n j : Z) : Prop := co_deviation x n j j = 0.
Definition Rcorr (x : Z -> Z -> R) (n i j : Z) : R :=
  co_deviation x n i j / (sqrt (co_deviation x n i i) * sqrt (co_deviation x n j j)).
(** addresses that belong to no entry of the result *)
Definition outside (o : order) (p ld a : Z) : Prop := forall i j, (0 <= i < p)%Z -> (0 <= j < p)%Z -> a <> entry o ld i j.
