(** What scaling a linear regression problem should mean: the table "Linear model data scaling types" and the cost function of
    doc/Algorithms/linear_models/linear_models.rst. *)
From Coq Require Import ZArith List Reals.
From Verif Require Import NnModel RealArith CdModel CdSpec LinModel.
Import ListNotations.
Local Open Scope R_scope.

Definition meanR (n : nat) (f : nat -> R) : R := Sigma n f / INR n.
Definition sdR (n : nat) (f : nat -> R) : R := R_sqrt.sqrt (Sigma n (fun i => (f i - meanR n f) ^ 2) / INR n).
Definition rmsR (n : nat) (f : nat -> R) : R := R_sqrt.sqrt (Sigma n (fun i => f i ^ 2) / INR n).

Section Table.
Context (sc : scaling) (icept : bool) (X : list (list R)) (y : list R).
Let n := length y.
(** the columns m_Y, s_Y, m_Xj, s_Xj of the table *)
Definition m_y : R := match sc with ScNone => 0 | _ => if icept then meanR n (fun i => nth i y 0) else 0 end.
Definition s_y : R :=
  match sc with
  | ScNone | Centering => 1
  | _ => if icept then sdR n (fun i => nth i y 0) else rmsR n (fun i => nth i y 0)
  end.
Definition m_x (j : nat) : R := match sc with ScNone => 0 | _ => if icept then meanR n (elem X j) else 0 end.
Definition s_x (j : nat) : R := match sc with Standardize => sdR n (elem X j) | _ => 1 end.
(** the factor 1 / sqrt N; the table has it for "standardize" too, where the code leaves it out *)
Definition root : R := match sc with ScaleOnly => R_sqrt.sqrt (INR n) | _ => 1 end.
(** nothing to divide by is 0: under "standardize" no feature is constant, under "standardize" and "scale only" the response
    is not constant (without an intercept: not 0 throughout) *)
Definition scalable : Prop := s_y <> 0 /\ forall j, (j < length X)%nat -> s_x j <> 0.
End Table.

(** the prediction for a sample x of any data set *)
Definition predicted (p : nat) (icept : bool) (coef : list R) (x : nat -> R) : R :=
  Sigma p (fun j => nth j coef 0 * x j) + (if icept then nth p coef 0 else 0).

(** The cost function of the documentation, and the one with the coefficients weighted by the spread of their features. *)
Definition doc_cost (alpha lambda : R) (X : list (list R)) (y : list R) (icept : bool) (coef : list R) : R :=
  / (2 * INR (length y)) * sse X y icept coef +
  lambda * (alpha * Sigma (length X) (fun j => Rabs (nth j coef 0)) +
            (1 - alpha) / 2 * Sigma (length X) (fun j => nth j coef 0 ^ 2)).
Definition spread_cost (w : nat -> R) (l1 l2 : R) (X : list (list R)) (y : list R) (icept : bool) (coef : list R) : R :=
  / (2 * INR (length y)) * sse X y icept coef +
  l1 * Sigma (length X) (fun j => Rabs (w j * nth j coef 0)) + l2 * Sigma (length X) (fun j => (w j * nth j coef 0) ^ 2).
Definition minimises (k : nat) (f : list R -> R) (coef : list R) : Prop :=
  length coef = k /\ forall c, length c = k -> f coef <= f c.

(** The factors of the two penalties, in the units of the user's data: lambda alpha and lambda (1 - alpha) / 2 are what the
    documentation says; the other ones are the policy in the comment of fit_impl (linear_model.cpp lines 959-972). *)
Definition ridge_only (alpha : R) : Prop := alpha = 0.
Definition l1_user (alpha lambda : R) : R := lambda * alpha.
Definition l2_user (sc : scaling) (n : nat) (sy alpha lambda : R) : R :=
  match sc with
  | Standardize => lambda * (1 - alpha) / (2 * sy)
  | ScaleOnly => if Req_EM_T alpha 0 then lambda / (2 * INR n) else lambda * (1 - alpha) / (2 * sy)
  | _ => if Req_EM_T alpha 0 then lambda / (2 * INR n) else lambda * (1 - alpha) / 2
  end.

(** What the solver is asked to minimise: coordinate descent and L-BFGS-B their objectives, the others the sum of squares with
    the squared norm of the coefficients. *)
Definition solver_cost (m : solver) (sc : scaling) (alpha lambda : R) (X : list (list R)) (y : list R) (icept : bool) : list R -> R :=
  match m with
  | Coord => cost (factor sc y) X y icept (l1_of arithR alpha lambda) (l2_of arithR alpha lambda)
  | Lbfgs => cost (/ (2 * INR (length y))) X y icept (l1_of arithR alpha lambda) (l2_of arithR alpha lambda)
  | _ => cost 1 X y icept 0 lambda
  end.
(** the combinations validate_options lets through (lines 1704-1780): penalties with a 1-norm are for coordinate descent, and QR takes none *)
Definition allowed (m : solver) (alpha lambda : R) : Prop :=
  match m with
  | Coord => 0 <= alpha <= 1 /\ 0 <= lambda
  | Qr => lambda = 0
  | _ => (alpha = 0 /\ 0 <= lambda) \/ lambda = 0
  end.

(** ** Solutions of the linear systems *)
Definition solves (k : nat) (A : nat -> nat -> R) (b : nat -> R) (x : list R) : Prop :=
  forall i, (i < k)%nat -> Sigma k (fun j => A i j * nth j x 0) = b i.
(** X = U diag(S) Vt with orthonormal columns of U and rows of Vt, what gesdd is for *)
Definition is_svd (X : list (list R)) (n : nat) (U : list (list R)) (S : list R) (Vt : list (list R)) : Prop :=
  let r := length S in
  length U = r /\ length Vt = r /\
  Forall (fun u => length u = n) U /\ Forall (fun v => length v = length X) Vt /\
  (forall a b, (a < r)%nat -> (b < r)%nat ->
     Sigma n (fun i => elem U a i * elem U b i) = (if Nat.eqb a b then 1 else 0) /\
     Sigma (length X) (fun j => elem Vt a j * elem Vt b j) = (if Nat.eqb a b then 1 else 0)) /\
  (forall j i, (j < length X)%nat -> (i < n)%nat -> elem X j i = Sigma r (fun a => elem U a i * nth a S 0 * elem Vt a j)).
(** A = Q R with r orthonormal columns of Q, what geqrf is for; A has [rows] rows and r columns *)
Definition is_qr (rows r : nat) (A : nat -> nat -> R) (Q : list (list R)) (Rm : nat -> nat -> R) : Prop :=
  length Q = r /\ Forall (fun q => length q = rows) Q /\
  (forall a b, (a < r)%nat -> (b < r)%nat -> Sigma rows (fun i => elem Q a i * elem Q b i) = (if Nat.eqb a b then 1 else 0)) /\
  (forall i j, (i < rows)%nat -> (j < r)%nat -> A i j = Sigma r (fun a => elem Q a i * Rm a j)).

(** the cost a fit minimises, in the user's units *)
Definition user_cost (sc : scaling) (icept : bool) (alpha lambda : R) (X : list (list R)) (y : list R) : list R -> R :=
  spread_cost (s_x sc X y) (l1_user alpha lambda) (l2_user sc (length y) (s_y sc icept y) alpha lambda) X y icept.

(** What the direct solvers compute for data X, y: exact solutions of the systems they set up (potrf and potrs, conjugate
    gradients, gesdd, geqrf and trtrs are not modelled).  Singular values are 0 or large enough where there is no penalty. *)
Definition solved_by (m : solver) (icept : bool) (eps : R) (X : list (list R)) (y : list R) (lambda : R) (b : list R) : Prop :=
  let n := length y in
  let p := length X in
  match m with
  | Cholesky | Cg =>
    if (ncoef X icept <=? n)%nat then
      length b = ncoef X icept /\ solves (ncoef X icept) (xtx arithR icept X y lambda) (xty arithR X y) b
    else exists d, length d = n /\ solves n (xxt arithR X lambda) (fun i => nth i y 0) d /\ b = from_dual arithR icept X d
  | Svd =>
    exists U S Vt, is_svd X n U S Vt /\ 0 <= eps /\
      (lambda = 0 -> forall a, (a < length S)%nat -> nth a S 0 = 0 \/ 100 * eps * Rmax (nth 0 S 0) 1 < nth a S 0) /\
      b = svd_coef arithR icept eps lambda U S Vt p y
  | Qr =>
    if (ncoef X icept <=? n)%nat then
      exists Q Rm x, is_qr n p (fun i j => elem X j i) Q Rm /\ length x = p /\ solves p Rm (qr_rhs arithR Q y) x /\ b = qr_coef arithR icept x
    else
      exists Q Rm z, is_qr p n (fun j i => elem X j i) Q Rm /\ length z = n /\ solves n (fun i a => Rm a i) (fun i => nth i y 0) z /\
        b = qr_from arithR Q z p
  | Coord | Lbfgs => False
  end.
(** an intercept the solver leaves to the centring of the data *)
Definition intercept_ok (m : solver) (sc : scaling) (icept : bool) (n p : nat) : Prop :=
  icept = true ->
  match m with
  | Qr => sc <> ScNone /\ (p + 1 <= n)%nat
  | Svd | Coord => sc <> ScNone
  | Cholesky | Cg => sc <> ScNone \/ (p + 1 <= n)%nat
  | Lbfgs => True
  end.
