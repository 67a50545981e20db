(** What coordinate descent for the elastic net is measured against: the cost function of the linear model
    (doc/Algorithms/linear_models/linear_models.rst), written with sums over indices, and its minimisers. *)
From Coq Require Import ZArith List Reals.
From Verif Require Import NnModel RealArith CdModel.
Import ListNotations.
Local Open Scope R_scope.

Definition Sigma (n : nat) (f : nat -> R) : R := fold_right Rplus 0 (map f (seq 0 n)).
Definition elem (X : list (list R)) (j i : nat) : R := nth i (nth j X []) 0.
(** the prediction for sample i: the coefficients of the features, then the intercept *)
Definition fitted (X : list (list R)) (icept : bool) (coef : list R) (i : nat) : R :=
  Sigma (length X) (fun j => nth j coef 0 * elem X j i) + (if icept then nth (length X) coef 0 else 0).
Definition sse (X : list (list R)) (y : list R) (icept : bool) (coef : list R) : R :=
  Sigma (length y) (fun i => (nth i y 0 - fitted X icept coef i) ^ 2).
(** c times the sum of squares, and the penalties on the coefficients of the features *)
Definition cost (c : R) (X : list (list R)) (y : list R) (icept : bool) (l1 l2 : R) (coef : list R) : R :=
  c * sse X y icept coef + l1 * Sigma (length X) (fun j => Rabs (nth j coef 0)) + l2 * Sigma (length X) (fun j => nth j coef 0 ^ 2).
(** the factor: 1/(2 n_samples), and 1/2 where the data have been divided by the square root of n_samples ("scale only") *)
Definition factor (sc : scaling) (y : list R) : R :=
  match sc with ScaleOnly => / 2 | _ => / (2 * INR (length y)) end.

Definition shaped (X : list (list R)) (y : list R) : Prop := y <> [] /\ Forall (fun c => length c = length y) X.
Definition ncoef (X : list (list R)) (icept : bool) : nat := (length X + if icept then 1 else 0)%nat.
(** coefficient k replaced *)
Definition replaced (coef : list R) (k : nat) (t : R) : list R :=
  map (fun j => if Nat.eqb j k then t else nth j coef 0) (seq 0 (length coef)).

(** the factors xv the preprocessing computes for the step functions (table in linear_model.cpp lines 2029-2052) *)
Definition norms (sc : scaling) (X : list (list R)) (y xv : list R) : Prop :=
  length xv = length X /\
  forall j, (j < length X)%nat ->
    nth j xv 0 = match sc with
                 | Standardize => Sigma (length y) (fun i => elem X j i ^ 2) / INR (length y)
                 | _ => Sigma (length y) (fun i => elem X j i ^ 2)
                 end.
(** the glmnet step divides by xv + 2 l2reg *)
Definition divisible (sc : scaling) (l2 : R) (X : list (list R)) (xv : list R) : Prop :=
  match sc with
  | Standardize | ScaleOnly => forall j, (j < length X)%nat -> 0 < nth j xv 0 + 2 * l2
  | _ => True
  end.
(** features and response with mean 0 *)
Definition centred (X : list (list R)) (y : list R) : Prop :=
  Sigma (length y) (fun i => nth i y 0) = 0 /\ forall j, (j < length X)%nat -> Sigma (length y) (fun i => elem X j i) = 0.
(** a step function for an intercept: the GLMnet variant, or centred data *)
Definition icept_ok (sc : scaling) (icept : bool) (X : list (list R)) (y : list R) : Prop :=
  icept = true -> match sc with Standardize | ScaleOnly => True | _ => centred X y end.

(** ** Observations of runs in double precision, for the counterexamples *)
Definition shown {T V} (f : T -> V) (q : outcome (T := T)) : option (exit_status * list V * option V * V * Z) :=
  match q with Finished r => Some (r_exit r, map f (r_x r), option_map f (r_f r), f (r_gap r), r_iter r) | _ => None end.
