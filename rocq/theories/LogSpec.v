(** What logistic regression is measured against: the probabilities of the classes and the penalised negative log-likelihood
    (doc/Algorithms/linear_models/linear_models.rst, "Logistic regression"; option "logistic constraint"), for a matrix of
    coefficients with one row per class. *)
From Coq Require Import ZArith List Reals.
From Verif Require Import NnModel RealArith CdSpec LogModel.
Import ListNotations.
Local Open Scope R_scope.

Section Spec.
Context (P : problem (T := R)) (c : lconstraint).
(** the linear combination of a row of coefficients for sample i: one per feature, then the intercept *)
Definition score (b : nat -> R) (i : nat) : R :=
  Sigma (nfeat P) (fun j => b j * entryX P j i) + (if icept P then b (nfeat P) else 0).
(** the scores of the classes: the reference category has score 0; with two classes that is class 0 *)
Definition class_score (B : nat -> nat -> R) (i k : nat) : R :=
  if Nat.eqb (nclass P) 2 then (if Nat.eqb k 1 then score (B 0%nat) i else 0)
  else match c with
       | RSC => if Nat.ltb k (nclass P - 1) then score (B k) i else 0
       | SSC => score (B k) i
       end.
Definition probability (K : nat) (s : nat -> R) (k : nat) : R := exp (s k) / Sigma K (fun l => exp (s l)).
Definition neg_log_likelihood (B : nat -> nat -> R) : R :=
  Sigma (nsam P) (fun i => - ln (probability (nclass P) (class_score B i) (Z.to_nat (lab P i)))).
(** the penalty on the coefficients of the features of the first [p] rows *)
Definition penalty (p : nat) (B : nat -> nat -> R) : R :=
  l1reg P * Sigma p (fun k => Sigma (nfeat P) (fun j => Rabs (B k j))) +
  l2reg P * Sigma p (fun k => Sigma (nfeat P) (fun j => B k j ^ 2)).
Definition log_cost (p : nat) (B : nat -> nat -> R) : R := neg_log_likelihood B + penalty p B.

(** a well-formed problem: two or more classes, every label one of them, penalties not negative *)
Definition well_formed : Prop :=
  (2 <= nclass P)%nat /\ (forall i, (i < nsam P)%nat -> (0 <= lab P i < Z.of_nat (nclass P))%Z) /\ 0 <= l1reg P /\ 0 <= l2reg P.

(** the coefficient of feature j (nfeat: the intercept) for row k in the solver's array *)
Definition solver_matrix {T} (P : problem (T := T)) (x : nat -> T) (k j : nat) : T :=
  if Nat.eqb (nclass P) 2 then x j
  else match c with
       | RSC => x (k * nmod P + j)%nat
       | SSC => x (j * nclass P + k)%nat
       end.
(** the same in an array of nrow_coef x ncol_coef of the user's storage order *)
Definition user_matrix {T} (P : problem (T := T)) (o : storage) (u : nat -> T) (k j : nat) : T :=
  match o with
  | ColMajor => u (j * nrow_coef P c + k)%nat
  | RowMajor => u (k * ncol_coef P + j)%nat
  end.
End Spec.

Definition ncoefs {T} (P : problem (T := T)) (c : lconstraint) : nat := (nrow_coef P c * ncol_coef P)%nat.
(** g is a subgradient of f at x over the first n coordinates; for a differentiable f that is its gradient *)
Definition subgradient (n : nat) (f : (nat -> R) -> R) (x g : nat -> R) : Prop :=
  forall x', f x + Sigma n (fun t => g t * (x' t - x t)) <= f x'.
(** the class of the largest probability, the first of several *)
Definition most_likely (K : nat) (p : nat -> R) (k : nat) : Prop :=
  (k < K)%nat /\ (forall l, (l < K)%nat -> p l <= p k) /\ (forall l, (l < k)%nat -> p l < p k).
