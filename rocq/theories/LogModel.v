(** Logistic regression: the objective functions and gradients of source/core/linear_model/linmod_nln_optim.cpp handed to the
    L-BFGS-B solver by fit_logreg_lbfgs (linear_model.cpp lines 1366-1428), the predictions of evaluate_model (lines 655-755)
    and the copies of the coefficients (lines 1192-1204 and 545-595).  The solver itself is not modelled.
    The feature matrix is a function of the feature and the sample (the fit copies row-major data to column-major storage,
    lines 1211-1226); the other arrays are functions of the buffer index.  Labels are the rounded responses std::round(y[i]).
    Sums add from the first element on; the order inside cblas is not fixed by the code.  exp and log are parameters. *)
From Coq Require Import ZArith List Bool.
From Verif Require Import Base NnModel.
Import ListNotations.

Section Log.
Context {T : Type} (N : arith T) (fexp flog : T -> T).
Notation "a + b" := (add N a b). Notation "a - b" := (sub N a b). Notation "a * b" := (mul N a b). Notation "a / b" := (div N a b).
Let one : T := of_Z N 1.
Definition msum (n : nat) (f : nat -> T) : T := fold_left (fun s i => s + f i) (seq 0 n) (zero N).

(** usrdata_base and cb_usrdata_logreg (nln_optim_callbacks.hpp lines 34-105): sizes, matrix, labels, intercept, penalties
    l1reg = lambda alpha and l2reg = lambda (1 - alpha) / 2 (linmod_nln_optim.cpp lines 68-69) *)
Record problem : Type := Problem { nsam : nat; nfeat : nat; nclass : nat; entryX : nat -> nat -> T; lab : nat -> Z;
                                   icept : bool; l1reg : T; l2reg : T }.
Definition penalties (lambda alpha : T) : T * T := (lambda * alpha, lambda * (one - alpha) / of_Z N 2).
Variable P : problem.
Definition nmod : nat := (nfeat P + if icept P then 1 else 0)%nat.

(** eval_feature_matrix without transposition, lines 138-155: [x] holds nmod coefficients, the intercept last *)
Definition eval_features (x : nat -> T) (i : nat) : T :=
  let v := msum (nfeat P) (fun j => entryX P j i * x j) in
  if icept P then v + x (nmod - 1)%nat else v.
(** regfun, lines 158-171 *)
Definition regfun (n : nat) (x : nat -> T) : T :=
  (if lt N (zero N) (l1reg P) then msum n (fun t => abs N (x t)) * l1reg P else zero N) +
  (if lt N (zero N) (l2reg P) then msum n (fun t => x t * x t) * l2reg P else zero N).
(** reggrd, lines 174-190: what is added to the entry [t] of the gradient *)
Definition is_zero (v : T) : bool := le N v (zero N) && le N (zero N) v.
Definition reggrd (n : nat) (x : nat -> T) (grad : nat -> T) (t : nat) : T :=
  if (t <? n)%nat then
    let g := grad t in
    let g := if lt N (zero N) (l1reg P) && negb (is_zero (x t))
             then g + (if lt N (x t) (zero N) then opp N (l1reg P) else l1reg P) else g in
    if lt N (zero N) (l2reg P) then g + of_Z N 2 * l2reg P * x t else g
  else grad t.

(** what the objective leaves in the work arrays for the gradient: lincomb[k * nsamples + i] by class and sample, maxexp, sumexp *)
Record work : Type := Work { w_lin : nat -> nat -> T; w_max : nat -> T; w_sum : nat -> T }.
(** the running maximum from 0 on, lines 222-231, 289-301, 440-443 *)
Definition max_from_zero (K : nat) (v : nat -> T) : T := fold_left (fun m k => if lt N m (v k) then v k else m) (seq 0 K) (zero N).
Definition of_class (i k : nat) : bool := Z.eqb (lab P i) (Z.of_nat k).

(** ** Two classes, lines 313-399 *)
Definition two_lin (x : nat -> T) (i : nat) : T := eval_features x i.
Definition label (i : nat) : T := of_Z N (lab P i).
Definition two_loss (x : nat -> T) (i : nat) : T :=
  let s := two_lin x i in
  if lt N s (zero N) then flog (one + fexp s) - label i * s
  else flog (one + fexp (opp N s)) + (one - label i) * s.
Definition two_objective (x : nat -> T) : T := msum (nsam P) (two_loss x) + regfun (nfeat P) x.
Definition two_work (x : nat -> T) : work := Work (fun _ i => two_lin x i) (fun _ => zero N) (fun _ => zero N).
(** gradients_p, lines 380-386 *)
Definition two_pointwise (w : work) (i : nat) : T :=
  let s := w_lin w 0%nat i in
  (if lt N s (zero N) then fexp s / (one + fexp s) else one / (one + fexp (opp N s))) - label i.
Definition two_gradient (xnew : bool) (w : work) (x : nat -> T) : nat -> T :=
  let w := if xnew then two_work x else w in
  reggrd (nfeat P) x (fun t =>
    if (t <? nfeat P)%nat then zero N + msum (nsam P) (fun i => entryX P t i * two_pointwise w i)
    else msum (nsam P) (two_pointwise w)).

(** ** Reference category, lines 199-311: the coefficients of class k are x[k * nmod], ..., x[(k + 1) * nmod - 1] *)
Definition rsc_lin (x : nat -> T) (k i : nat) : T := eval_features (fun t => x (k * nmod + t)%nat) i.
Definition rsc_work (x : nat -> T) : work :=
  Work (rsc_lin x) (fun i => max_from_zero (nclass P - 1) (fun k => rsc_lin x k i)) (fun _ => zero N).
(** log of the sum over the classes, lines 241-247 and 306-310 *)
Definition rsc_lse (w : work) (i : nat) : T :=
  w_max w i + flog (fold_left (fun s k => s + fexp (w_lin w k i - w_max w i)) (seq 0 (nclass P - 1)) (fexp (opp N (w_max w i)))).
Definition rsc_objective (x : nat -> T) : T :=
  let w := rsc_work x in
  let f := fold_left (fun f k => fold_left (fun f i => if of_class i k then f - w_lin w k i else f) (seq 0 (nsam P)) f)
                     (seq 0 (nclass P - 1)) (zero N) in
  fold_left (fun f i => f + rsc_lse w i) (seq 0 (nsam P)) f + regfun (nfeat P) x.
Definition rsc_pointwise (w : work) (k i : nat) : T :=
  let v := opp N (fexp (w_lin w k i - rsc_lse w i)) in if of_class i k then v + one else v.
(** lines 302-325: the entry k * nmod + j; the penalty is added to the first nfeat entries only, line 308 *)
Definition rsc_gradient (xnew : bool) (w : work) (x : nat -> T) : nat -> T :=
  let w := if xnew then rsc_work x else w in
  reggrd (nfeat P) x (fun t =>
    let k := (t / nmod)%nat in let j := (t mod nmod)%nat in
    fold_left (fun g i => g - (if (j <? nfeat P)%nat then entryX P j i * rsc_pointwise w k i else rsc_pointwise w k i))
              (seq 0 (nsam P)) (zero N)).

(** ** Symmetric side constraint, lines 401-539: the coefficient of feature j for class k is x[j * nclass + k], the
    intercepts are the last nclass entries *)
Definition ssc_size : nat := (nmod * nclass P)%nat.
Definition ssc_lin (x : nat -> T) (k i : nat) : T :=
  fold_left (fun s j => s + entryX P j i * x (j * nclass P + k)%nat) (seq 0 (nfeat P))
            (if icept P then x (ssc_size - (nclass P - k))%nat else zero N).
Definition ssc_work (x : nat -> T) : work :=
  let mx := fun i => max_from_zero (nclass P) (fun k => ssc_lin x k i) in
  Work (ssc_lin x) mx (fun i => msum (nclass P) (fun k => fexp (ssc_lin x k i - mx i))).
Definition ssc_objective (x : nat -> T) : T :=
  let w := ssc_work x in
  fold_left (fun f i => fold_left (fun f k => if of_class i k then f - w_lin w k i else f) (seq 0 (nclass P)) f
                        + (w_max w i + flog (w_sum w i))) (seq 0 (nsam P)) (zero N)
  + regfun (nfeat P * nclass P) x.
(** recomputed by the gradient when it is told that x is new, lines 483-511: the sum starts from exp(-maxexp[i]), line 506 *)
Definition ssc_work_new (x : nat -> T) : work :=
  let mx := fun i => max_from_zero (nclass P) (fun k => ssc_lin x k i) in
  Work (ssc_lin x) mx (fun i => fold_left (fun s k => s + fexp (ssc_lin x k i - mx i)) (seq 0 (nclass P)) (fexp (opp N (mx i)))).
Definition ssc_pointwise (w : work) (k i : nat) : T :=
  let v := fexp (w_lin w k i - w_max w i) / w_sum w i in if of_class i k then v - one else v.
Definition ssc_gradient (xnew : bool) (w : work) (x : nat -> T) : nat -> T :=
  let w := if xnew then ssc_work_new x else w in
  reggrd (nfeat P * nclass P) x (fun t =>
    let j := (t / nclass P)%nat in let k := (t mod nclass P)%nat in
    msum (nsam P) (fun i => if (j <? nfeat P)%nat then ssc_pointwise w k i * entryX P j i else ssc_pointwise w k i)).

(** ** evaluate_model, lines 655-744: the class predicted for sample i of the matrix of [P] *)
Definition two_predict (x : nat -> T) (i : nat) : nat := if lt N (zero N) (two_lin x i) then 1%nat else 0%nat.
(** the best class so far and its value, from class 0 and value 0 on *)
Definition best_class (K : nat) (v : nat -> T) : nat :=
  fst (fold_left (fun s k => if lt N (snd s) (v k) then (k, v k) else s) (seq 0 K) (0%nat, zero N)).
Definition rsc_weight (x : nat -> T) (i k : nat) : T := if (k <? nclass P - 1)%nat then fexp (rsc_lin x k i) else one.
Definition rsc_prob (x : nat -> T) (i k : nat) : T := rsc_weight x i k / msum (nclass P) (rsc_weight x i).
Definition rsc_predict (x : nat -> T) (i : nat) : nat := best_class (nclass P) (rsc_prob x i).
Definition ssc_predict (x : nat -> T) (i : nat) : nat := best_class (nclass P) (fun k => ssc_lin x k i).
End Log.
Arguments Problem {T}. Arguments Work {T}.
Arguments nsam {T}. Arguments nfeat {T}. Arguments nclass {T}. Arguments entryX {T}. Arguments lab {T}. Arguments icept {T}.
Arguments l1reg {T}. Arguments l2reg {T}. Arguments nmod {T}. Arguments w_lin {T}. Arguments w_max {T}. Arguments w_sum {T}.
Arguments of_class {T}. Arguments ssc_size {T}.

(** the constraint in force: with two classes the option plays no part (linear_model.cpp lines 1178-1186, 669-706) *)
Inductive lconstraint : Type := RSC | SSC.
Inductive storage : Type := ColMajor | RowMajor.
Section Fit.
Context {T : Type} (N : arith T) (fexp flog : T -> T) (P : problem (T := T)) (c : lconstraint).
Definition two : bool := Nat.eqb (nclass P) 2.
Definition nrow_coef : nat := match c with RSC => (nclass P - 1)%nat | SSC => if two then (nclass P - 1)%nat else nclass P end.
Definition ncol_coef : nat := nmod P.
Definition objective (x : nat -> T) : T :=
  if two then two_objective N fexp flog P x else match c with RSC => rsc_objective N fexp flog P x | SSC => ssc_objective N fexp flog P x end.
Definition after_objective (x : nat -> T) : work :=
  if two then two_work N P x else match c with RSC => rsc_work N P x | SSC => ssc_work N fexp P x end.
Definition gradient (xnew : bool) (w : work) (x : nat -> T) : nat -> T :=
  if two then two_gradient N fexp P xnew w x else
  match c with RSC => rsc_gradient N fexp flog P xnew w x | SSC => ssc_gradient N fexp P xnew w x end.
Definition predict (x : nat -> T) (i : nat) : nat :=
  if two then two_predict N P x i else match c with RSC => rsc_predict N fexp P x i | SSC => ssc_predict N P x i end.

(** get_coef, lines 574-582, with copy_2D_results_array (basic_handle.cpp lines 235-251): what the user's array holds.
    Every solver array of nrow_coef x ncol_coef is taken to be column-major. *)
Definition get_coef (o : storage) (coef : nat -> T) (u : nat) : T :=
  if two then coef u else
  match o with
  | ColMajor => coef u
  | RowMajor => coef (u / ncol_coef + nrow_coef * (u mod ncol_coef))%nat
  end.
(** the starting point from the user's array, lines 1192-1204 *)
Definition start_coef (o : storage) (u : nat -> T) (t : nat) : T :=
  match o with
  | ColMajor => u t
  | RowMajor => u ((t mod nrow_coef) * ncol_coef + t / nrow_coef)%nat
  end.
End Fit.
