(** What the distances between all pairs of rows should be. *)
From Coq Require Import ZArith List Bool Reals.
From Flocq Require Import BinarySingleNaN.
From Verif Require Import Par F64 NnModel PairModel.
Import ListNotations.
Local Open Scope Z_scope.

(** The place of an entry of a matrix. *)
Definition cell (o : order_of) (ld i j : Z) : Z := match o with ColumnMajor => i + j * ld | RowMajor => i * ld + j end.
Definition ld_ok (o : order_of) (rows cols ld : Z) : Prop := match o with ColumnMajor => rows <= ld | RowMajor => cols <= ld end.
(** The array holds the matrix [x]. *)
Definition holds {T} (o : order_of) (rows cols ld : Z) (X : mem T) (x : Z -> Z -> T) : Prop :=
  forall i j, 0 <= i < rows -> 0 <= j < cols -> X (cell o ld i j) = Some (x i j).
(** The array has room for a matrix. *)
Definition room {T} (o : order_of) (rows cols ld : Z) (D : mem T) : Prop :=
  forall i j, 0 <= i < rows -> 0 <= j < cols -> exists v, D (cell o ld i j) = Some v.
(** [D'] is [D] with the matrix [d] written into it and nothing else changed. *)
Definition written {T} (o : order_of) (rows cols ld : Z) (D D' : mem T) (d : Z -> Z -> T) : Prop :=
  holds o rows cols ld D' d /\
  forall a, (forall i j, 0 <= i < rows -> 0 <= j < cols -> a <> cell o ld i j) -> D' a = D a.
(** Every block of rows comes exactly once, in any order. *)
Definition schedule (mc m : Z) (sched : Z -> Z -> list Z) : Prop :=
  forall j p, NoDup (sched j p) /\ forall i, In i (sched j p) <-> 0 <= i < m /\ (mc | i).
(** what the code asserts about the sizes of the blocks (partitioning_infrastructure.hpp lines 200-201) *)
Definition good_sizes (b : sizes) : Prop :=
  0 < MR b /\ 0 < NR b /\ 0 < MC b /\ 0 < NC b /\ 0 < KC b /\ (MR b | MC b) /\ (NR b | NC b).

(** The value of two rows: their columns in slices of [kc], one after another. *)
Definition pairs {T} (x y : Z -> T) (from n : Z) : list (T * T) := map (fun r => (x (from + r), y (from + r))) (zrange n).
Definition value {T} (zero : T) (kern : T -> list (T * T) -> T) (kc k : Z) (x y : Z -> T) : T :=
  fold_left (fun v q => kern v (pairs x y (q * kc) (Z.min kc (k - q * kc)))) (zrange ((k + kc - 1) / kc)) zero.
(** The second matrix [y], with [n'] rows: the one given, or the first one. *)
Definition second {T} (o : order_of) (m n k : Z) (Y : option (mem T)) (ldy : Z) (x y : Z -> Z -> T) (n' : Z) : Prop :=
  match Y with Some Y => n' = n /\ holds o n k ldy Y y | None => n' = m /\ y = x end.
Definition given {A} (a : option A) : bool := match a with Some _ => true | None => false end.
(** A call of da_pairwise_distances with accepted arguments, data in place and room for the result. *)
Definition proper_call {T} (b : sizes) (sched : Z -> Z -> list Z) (p_ok : bool) (mt : @pair_metric T) (o : order_of)
    (m n k : Z) (X : mem T) (ldx : Z) (Y : option (mem T)) (ldy : Z) (D : mem T) (ldd : Z) (x y : Z -> Z -> T) (n' : Z) : Prop :=
  accepted o m n k ldx ldy ldd (given Y) p_ok mt = true /\ schedule (MC b) m sched /\
  holds o m k ldx X x /\ second o m n k Y ldy x y n' /\ room o m n' ldd D.

(** The call ends without an access outside the arrays and leaves the matrix [d] in D, and D as it was elsewhere. *)
Definition gives {T} (O : ops T) (b : sizes) (nrm2 : list T -> T) (eps : T) (garbage : Z -> T) (sched : Z -> Z -> list Z)
    (mt : @pair_metric T) (o : order_of) (m n k : Z) (X : mem T) (ldx : Z) (Y : option (mem T)) (ldy : Z) (D : mem T) (ldd : Z)
    (n' : Z) (d : Z -> Z -> T) : Prop :=
  exists D', pairwise O b nrm2 eps garbage sched mt o m n k X ldx Y ldy D ldd = Some D' /\ written o m n' ldd D D' d.

(** ** Real numbers *)
Definition real_ops (pw : R -> R -> R) : ops R :=
  Ops R 0%R 1%R Rplus Rminus Rdiv Rmult (fun a b c => a * b + c)%R Rabs R_sqrt.sqrt pw
    (fun a b => if Rle_dec a b then true else false) 2%R (fun a b => if Req_EM_T a b then true else false).
Definition rsum (k : Z) (f : Z -> R) : R := fold_right Rplus 0%R (map f (zrange k)).
Definition is_cosine {T} (mt : @pair_metric T) : bool := match mt with PCosine => true | _ => false end.
(** Minkowski's distance with p = 2 is the Euclidean one, with p = 1 the Manhattan one. *)
Definition meant {T} (O : ops T) (mt : @pair_metric T) : pair_metric :=
  match mt with
  | PMinkowski p => if o_eq O p (o_two O) then PEuclidean else if o_eq O p (o_one O) then PManhattan else mt
  | _ => mt
  end.
(** The distances by their definitions: [x], [y] are rows with [k] columns. *)
Local Open Scope R_scope.
Definition true_distance (pw : R -> R -> R) (mt : @pair_metric R) (k : Z) (x y : Z -> R) : R :=
  match mt with
  | PSqeuclidean => rsum k (fun p => Rsqr (x p - y p))
  | PEuclidean => R_sqrt.sqrt (rsum k (fun p => Rsqr (x p - y p)))
  | PManhattan => rsum k (fun p => Rabs (x p - y p))
  | PMinkowski q => pw (rsum k (fun p => pw (Rabs (x p - y p)) q)) (1 / q)
  | PCosine => 1 - rsum k (fun p => x p * y p) / (R_sqrt.sqrt (rsum k (fun p => Rsqr (x p))) * R_sqrt.sqrt (rsum k (fun p => Rsqr (y p))))
  end.
(** ** Doubles *)
Definition all_finite (m k : Z) (x : Z -> Z -> f64) : Prop := forall i p, (0 <= i < m)%Z -> (0 <= p < k)%Z -> is_finite (x i p) = true.
(** not NaN and not below zero *)
Definition nonneg (g : f64) : Prop := is_nan g = false /\ Bsign g = false.
Definition zero64 : f64 := f64_of_Z 0.
(** the metrics whose value is a sum of terms that are not negative *)
Definition sum_of_differences {T} (mt : @pair_metric T) : bool :=
  match mt with PEuclidean | PSqeuclidean | PManhattan => true | _ => false end.
(** the metrics whose terms are added one after another *)
Definition one_sum {T} (mt : @pair_metric T) : bool := match mt with PManhattan | PMinkowski _ | PCosine => true | _ => false end.
(** what cblas_nrm2 stands for *)
Definition norm_contract (nrm2 : list R -> R) : Prop := forall l, nrm2 l = R_sqrt.sqrt (fold_right Rplus 0 (map Rsqr l)).
(** a simple implementation of it in doubles, for examples *)
Definition simple_nrm2 (l : list f64) : f64 := f64_sqrt (fold_left (fun s v => f64_add s (f64_mul v v)) l zero64).
(** one thread *)
Definition in_turn (mc m : Z) : Z -> Z -> list Z := fun _ _ => starts m mc.
(** what cblas_gemm and da_syrk stand for *)
Definition gemm_contract (gemm : Z -> (Z -> R) -> (Z -> R) -> R) : Prop := forall k x y, gemm k x y = - 2 * rsum k (fun p => x p * y p).
(** with one column the product is rounded correctly *)
Definition gemm_one_column (gemm : Z -> (Z -> f64) -> (Z -> f64) -> f64) : Prop :=
  forall x y, gemm 1%Z x y = f64_mul (f64_of_Z (-2)) (f64_mul (x 0%Z) (y 0%Z)).
