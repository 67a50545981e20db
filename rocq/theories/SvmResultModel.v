(** How da_svm_compute gathers the results of its classifiers: svm.cpp:478-757
    and set_sv, c_svm.cpp:313-360.  Training is a parameter: [al (i, j) s] is the
    signed coefficient of sample [s] in the classifier of classes i < j.

    Simplified: coefficients and entries of support_indexes_pos/neg are given by
    sample instead of the position in idx_class; position 0 is the first sample
    of idx_class. *)
From Coq Require Import QArith Qabs List Bool Arith.
From Verif Require Import SvmModel SvmClassModel.
Import ListNotations.
Local Open Scope nat_scope.

Definition coefficients := nat * nat -> nat -> Q.

(** Training data as far as it matters here. *)
Record labelled := Labelled { samples : nat; classes : nat; label : nat -> nat }.

(** idx_class, svm.cpp:364-384. *)
Definition idx_class (D : labelled) (ij : nat * nat) : list nat :=
  filter (fun s => (label D s =? fst ij) || (label D s =? snd ij)) (seq 0 (samples D)).

(** support_indexes_pos and support_indexes_neg of a classifier.  They persist
    between calls of compute, and so does n_support_per_class, which set_sv only
    ever adds to (base_svm.cpp:288, c_svm.cpp:320-329): it is the length of the
    lists. *)
Definition stored := nat * nat -> list nat * list nat.

(* vector::resize to a larger size keeps the entries and appends zeros; then the
   first entries are overwritten. *)
Definition grow (old new : list nat) (zero : nat) : list nat :=
  new ++ skipn (length new) (old ++ repeat zero (length new)).

Definition positive (D : labelled) (ij : nat * nat) (s : nat) : bool := label D s =? fst ij.

Definition set_sv (D : labelled) (meps : Q) (al : coefficients) (ij : nat * nat)
    (old : list nat * list nat) : list nat * list nat :=
  let idx := idx_class D ij in
  let sv := filter (fun s => Qlt_bool meps (Qabs (al ij s))) idx in
  let zero := hd 0 idx in
  (grow (fst old) (filter (positive D ij) sv) zero,
   grow (snd old) (filter (fun s => negb (positive D ij s)) sv) zero).

(** The counting loops, svm.cpp:644-661. *)
Record counted := Counted { marked : list nat; per_class : nat -> nat }.
Definition mark (c : nat) (st : counted) (s : nat) : counted :=
  if chosen (marked st) s then st
  else Counted (marked st ++ [s]) (fun k => if k =? c then S (per_class st k) else per_class st k).
Definition count_pair (sets : stored) (st : counted) (ij : nat * nat) : counted :=
  let st1 := fold_left (mark (fst ij)) (fst (sets ij)) st in
  fold_left (mark (snd ij)) (snd (sets ij)) st1.
(* Reset before, lines 501-510. *)
Definition count_all (sets : stored) (nc : nat) : counted :=
  fold_left (count_pair sets) (pairs nc) (Counted [] (fun _ => 0)).

(** starting_col_idx, lines 694-697. *)
Definition starting (per : nat -> nat) (c : nat) : nat :=
  fold_right (fun k acc => per k + acc) 0 (seq 0 c).

(** Writes to support_coefficients, lines 703-726, each with row and column. *)
Definition write := (nat * nat * Q)%type.
Fixpoint fill_pair (sv pos : nat -> bool) (v : nat -> Q) (ri rj ci cj : nat) (l : list nat)
  : list write :=
  match l with
  | [] => []
  | s :: l' =>
    if sv s then
      if pos s then (ri, ci, v s) :: fill_pair sv pos v ri rj (S ci) cj l'
      else (rj, cj, v s) :: fill_pair sv pos v ri rj ci (S cj) l'
    else fill_pair sv pos v ri rj ci cj l'
  end.
Definition bump (rows : nat -> nat) (c : nat) : nat -> nat :=
  fun k => if k =? c then S (rows k) else rows k.
Fixpoint fill_all (D : labelled) (al : coefficients) (sv : nat -> bool) (start : nat -> nat)
    (rows : nat -> nat) (l : list (nat * nat)) : list write :=
  match l with
  | [] => []
  | ij :: l' =>
    fill_pair sv (positive D ij) (al ij) (rows (fst ij)) (rows (snd ij))
      (start (fst ij)) (start (snd ij)) (idx_class D ij) ++
    fill_all D al sv start (bump (bump rows (fst ij)) (snd ij)) l'
  end.

(** Writes to support_indexes, lines 728-735. *)
Fixpoint fill_indexes (D : labelled) (sv : nat -> bool) (col : nat -> nat) (l : list nat)
  : list (nat * nat) :=
  match l with
  | [] => []
  | s :: l' =>
    if sv s then (col (label D s), s) :: fill_indexes D sv (bump col (label D s)) l'
    else fill_indexes D sv col l'
  end.

Record gathered := Gathered {
  n_sv : nat;
  n_sv_per_class : nat -> nat;
  coefficient_writes : list write;
  index_writes : list (nat * nat) }.

Definition gather_results (D : labelled) (meps : Q) (al : coefficients) (old : stored)
  : gathered * stored :=
  let sets := fun ij => set_sv D meps al ij (old ij) in
  let st := count_all sets (classes D) in
  let start := starting (per_class st) in
  let sv := chosen (marked st) in
  (Gathered (length (marked st)) (per_class st)
     (fill_all D al sv start (fun _ => 0) (pairs (classes D)))
     (fill_indexes D sv start (seq 0 (samples D))), sets).

(** A handle after set_data: its classifiers are new. *)
Definition fresh : stored := fun _ => ([], []).

(** Two classes, lines 662-668: the numbers of the only classifier are copied,
    n_support_per_class has the negative class (label 0) first. *)
Definition binary_counts (D : labelled) (meps : Q) (al : nat -> Q) (old : list nat * list nat)
  : (nat * nat) * (list nat * list nat) :=
  let sets := set_sv D meps (fun _ => al) (1, 0) old in
  ((length (snd sets), length (fst sets)), sets).

(** Squared norms for the RBF kernel, base_svm.cpp:226-239: [x i j] is feature
    [i] of sample [j]; x_norm_aux persists between calls. *)
Definition add_norms (n p : nat) (x : nat -> nat -> Q) (old : list Q) : list Q :=
  map (fun j => (nth j old 0 + sum (fun i => x i j * x i j) (seq 0 p))%Q) (seq 0 n).

(** The matrix kept by set_data, svm.cpp:301-303 with store_2D_array,
    basic_handle.cpp:209-232: row-major data is copied, column by column without
    gaps; column-major data is used where it is. *)
Definition kept_matrix (column_major : bool) (X : nat -> Q) (nrow ldx : nat) : nat -> Q :=
  if column_major then X else fun k => X (k mod nrow * ldx + k / nrow).

(** support_vectors, svm.cpp:746-751: feature [j] of sample [s]. *)
Definition support_vector (column_major : bool) (X : nat -> Q) (nrow ldx s j : nat) : Q :=
  kept_matrix column_major X nrow ldx (s + j * nrow).
