(** Covariance and correlation matrices, source/core/basic_statistics/correlation_and_covariance.cpp.  Matrices are
    functions from addresses to values, as in MomModel. *)
From Coq Require Import ZArith List Bool.
From Verif Require Import Base NnModel MomModel.
Import ListNotations.
Local Open Scope Z_scope.

Section Cov.
Context {T : Type} (N : arith T).

(** The sum that a product of matrices forms, in some order; here from the first row on *)
Fixpoint inner_product (f : Z -> T) (n : nat) : T :=
  match n with O => zero N | S n' => add N (inner_product f n') (f (Z.of_nat n')) end.

(** the copy of the data, lines 63-85: leading dimension [ld_copy] *)
Definition ld_copy (o : order) (n p : Z) : Z := match o with column_major => n | row_major => p end.
Definition x_copy (o : order) (n p : Z) (x : Z -> T) (ldx : Z) : Z -> T :=
  fun a => x (a / ld_copy o n p * ldx + a mod ld_copy o n p).

(** da_syrk with beta = 0 and the transposed first operand, line 118: the triangle of alpha x^T x, written at the
    addresses of the order of storage; the rest of the array stays *)
Inductive uplo := upper | lower.
Definition in_triangle (u : uplo) (i j : Z) : bool := match u with upper => i <=? j | lower => j <=? i end.
Definition at_entry (o : order) (ld r c : Z) : Z := match o with column_major => c * ld + r | row_major => r * ld + c end.
Definition syrk (o : order) (u : uplo) (n p : Z) (alpha : T) (y : Z -> T) (ldy : Z) (mat : Z -> T) (ldmat : Z) : Z -> T :=
  fun a =>
    let '(i, j) := match o with column_major => (a mod ldmat, a / ldmat) | row_major => (a / ldmat, a mod ldmat) end in
    if (0 <=? a) && (i <? p) && (j <? p) && in_triangle u i j then
      mul N alpha (inner_product (fun k => mul N (y (at_entry o ldy k i)) (y (at_entry o ldy k j))) (Z.to_nat n))
    else mat a.

(** lines 121-128: mat[j + i * ldmat] = mat[i + j * ldmat] for i < j < p *)
Definition mirror (p ldmat : Z) (mat : Z -> T) : Z -> T :=
  fun a => let i := a / ldmat in let j := a mod ldmat in
    if (0 <=? a) && (i <? j) && (j <? p) then mat (i + j * ldmat) else mat a.
(** lines 131-136 *)
Definition unit_diagonal (p ldmat : Z) (mat : Z -> T) : Z -> T :=
  fun a => let i := a / ldmat in if (0 <=? a) && (i <? p) && (a mod ldmat =? i) then of_Z N 1 else mat a.

(** cov_corr_matrix, lines 42-141; the pointers are assumed to be good and memory to suffice.  [t]: the threads of the
    sums of standardize, which succeeds as line 108 expects *)
Definition cov_corr_matrix (t : team) (o : order) (n p : Z) (x : Z -> T) (ldx dof : Z) (mat : Z -> T) (ldmat : Z)
    (compute_corr : bool) (assume_centered : Z) : da_status * (Z -> T) :=
  if ldx <? (match o with column_major => n | row_major => p end) then (st_invalid_leading_dimension, mat)
  else if ldmat <? p then (st_invalid_leading_dimension, mat)
  else if (n <=? 1) || (p <? 1) then (st_invalid_array_dimension, mat)
  else if negb (assume_centered =? 0) && negb (assume_centered =? 1) then (st_invalid_input, mat)
  else
    let xc := x_copy o n p x ldx in
    let ldc := ld_copy o n p in
    let sf := if dof <? 0 then n else if dof =? 0 then n - 1 else dof in
    let y :=
      if compute_corr then std_data (standardize N t o axis_col n p xc ldc 1 0 None None)
      else if assume_centered =? 0 then std_data (standardize N t o axis_col n p xc ldc dof 0 (Some (fun _ => zero N)) None)
      else xc in
    let u := match o with column_major => upper | row_major => lower end in
    let sf := if (sf <? 1) || compute_corr then 1 else sf in
    let mat := mirror p ldmat (syrk o u n p (div N (of_Z N 1) (of_Z N sf)) y ldc mat ldmat) in
    (st_success, if compute_corr then unit_diagonal p ldmat mat else mat).
(** lines 143-153 *)
Definition covariance_matrix t o n p x ldx dof cov ldcov assume_centered :=
  cov_corr_matrix t o n p x ldx dof cov ldcov false assume_centered.
Definition correlation_matrix t o n p x ldx corr ldcorr := cov_corr_matrix t o n p x ldx 0 corr ldcorr true 0.
End Cov.
