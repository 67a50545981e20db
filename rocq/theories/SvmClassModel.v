(** Several classes and probabilities of support vector classifiers:
    source/core/svm/svm.cpp.  Numbers are exact rationals; the decision values
    of the one-against-one classifiers are parameters (see SvmModel.v). *)
From Coq Require Import QArith Qabs List Bool Arith.
From Verif Require Import SvmModel.
Import ListNotations.
Local Open Scope Q_scope.

(** Order of the classifiers: 0v1, 0v2, ..., 1v2, ...; set_data, svm.cpp:359-402.
    The first class of a pair is the positive one. *)
Definition pairs (nc : nat) : list (nat * nat) :=
  flat_map (fun i => map (fun j => (i, j)) (seq (S i) (nc - S i))) (seq 0 nc).

(** Decision values of one sample: [d i j] is that of the classifier of the pair. *)
Definition values := nat -> nat -> Q.

(** base_svm::predict, base_svm.cpp:381-394, and the vote, svm.cpp:806-812. *)
Definition winner (d : values) (ij : nat * nat) : nat :=
  if Qlt_bool 0 (d (fst ij) (snd ij)) then fst ij else snd ij.
Definition votes (nc : nat) (d : values) (c : nat) : nat :=
  length (filter (fun ij => (winner d ij =? c)%nat) (pairs nc)).

(** The argmax of svm.cpp:815-826. *)
Fixpoint most (v : nat -> nat) (l : list nat) (best : nat * nat) : nat * nat :=
  match l with
  | [] => best
  | c :: l' => most v l' (if (fst best <? v c)%nat then (v c, c) else best)
  end.
Definition predict (nc : nat) (d : values) : nat :=
  snd (most (votes nc d) (seq 0 nc) (0, 0)%nat).

(** The one-versus-rest values, svm.cpp:930-955. *)
Fixpoint confidence (d : values) (l : list (nat * nat)) (c : nat) : Q :=
  match l with
  | [] => 0
  | (i, j) :: l' =>
    (if (i =? c)%nat then d i j else 0) - (if (j =? c)%nat then d i j else 0) + confidence d l' c
  end.
Definition ovr (nc : nat) (d : values) (c : nat) : Q :=
  inject_Z (Z.of_nat (votes nc d c)) +
  confidence d (pairs nc) c / (3 * (Qabs (confidence d (pairs nc) c) + 1)).

(** ** Coupling of pairwise probabilities, predict_proba, svm.cpp:1113-1185. *)

(* Lines 1126-1139.  [s j l] is the value of the sigmoid for the pair j < l. *)
Definition min_prob : Q := 1 # 10000000.
Definition clip (x : Q) : Q := Qmin (Qmax x min_prob) (1 - min_prob).
Definition pairwise (s : nat -> nat -> Q) (j l : nat) : Q :=
  if (j <? l)%nat then clip (s j l) else 1 - clip (s l j).

(* Lines 1142-1157. *)
Definition entry (r : nat -> nat -> Q) (nc t j : nat) : Q :=
  if (t =? j)%nat then
    sum (fun k => if (k =? t)%nat then 0 else r k t * r k t) (seq 0 nc)
  else if (t <? j)%nat then - r j t * r t j else - r t j * r j t.

Record coupled := Coupled { prob : vec; qp : vec; pqp : Q }.

(* Lines 1163-1172. *)
Definition products (r : nat -> nat -> Q) (nc : nat) (p : vec) : coupled :=
  let q := tab nc (fun t => sum (fun j => entry r nc t j * p j) (seq 0 nc)) in
  Coupled p q (sum (fun t => p t * q t) (seq 0 nc)).

(* Lines 1174-1180. *)
Definition max_error (nc : nat) (c : coupled) : Q :=
  fold_left (fun m t => Qmax m (Qabs (qp c t - pqp c))) (seq 0 nc) 0.

(* Lines 1183-1202. *)
Definition update (r : nat -> nat -> Q) (nc : nat) (c : coupled) (t : nat) : coupled :=
  let Qt := entry r nc t t in
  if Qeq_bool Qt 0 then c else
  let diff := (- qp c t + pqp c) / Qt in
  let p1 := tab nc (fun j => if (j =? t)%nat then prob c j + diff else prob c j) in
  let denom := 1 + diff in
  if Qeq_bool denom 0 then Coupled p1 (qp c) (pqp c) else
  Coupled (tab nc (fun j => p1 j / denom))
    (tab nc (fun j => (qp c j + diff * entry r nc t j) / denom))
    ((pqp c + diff * (diff * Qt + 2 * qp c t)) / (denom * denom)).

(* The result says whether the test of line 1179 ended the loop. *)
Fixpoint couple (fuel : nat) (r : nat -> nat -> Q) (nc : nat) (eps : Q) (p : vec) : vec * bool :=
  match fuel with
  | O => (p, false)
  | S f =>
    let c := products r nc p in
    if Qlt_bool (max_error nc c) eps then (p, true)
    else couple f r nc eps (prob (fold_left (update r nc) (seq 0 nc) c))
  end.

Definition tolerance (nc : nat) : Q := (5 # 1000) / inject_Z (Z.of_nat nc).
Definition predict_proba (nc : nat) (s : nat -> nat -> Q) : vec * bool :=
  couple (Nat.max 100 nc) (pairwise s) nc (tolerance nc)
    (tab nc (fun _ => 1 / inject_Z (Z.of_nat nc))).
