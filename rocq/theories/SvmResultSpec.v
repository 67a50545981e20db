(** What the gathered results should say. *)
From Coq Require Import QArith Qabs List Arith.
From Verif Require Import SvmModel SvmClassModel SvmResultModel.
Import ListNotations.
Local Open Scope nat_scope.

(** Labels 0 to K-1. *)
Definition labels_ok (D : labelled) : Prop := forall s, s < samples D -> label D s < classes D.

(** Sample [s] supports a classifier of its class. *)
Definition supports (D : labelled) (meps : Q) (al : coefficients) (s : nat) : Prop :=
  s < samples D /\
  exists i j, i < j < classes D /\ (label D s = i \/ label D s = j) /\ (meps < Qabs (al (i, j) s))%Q.

(** The support vectors of a class, in increasing order. *)
Definition supporting (D : labelled) (meps : Q) (al : coefficients) (c : nat) (l : list nat) : Prop :=
  (forall s, In s l <-> supports D meps al s /\ label D s = c) /\
  forall a b, a < b < length l -> nth a l 0 < nth b l 0.

(** Value of the classifier of classes [c] and [o] at a sample. *)
Definition against (al : coefficients) (c o s : nat) : Q :=
  if c <? o then al (c, o) s else al (o, c) s.

(** Row of class [o] in a column of class [c]: the other classes in order. *)
Definition row_of (c o : nat) : nat := if o <? c then o else o - 1.

(** What a cell holds after the writes: all writes to it agree on [v], and
    there is one. *)
Definition holds {A B} (w : list (A * B)) (cell : A) (v : B) : Prop :=
  In (cell, v) w /\ forall v', In (cell, v') w -> v' = v.

(** Column of the support vector number [q] of class [c] when the support
    vectors of the classes are put one class after the other. *)
Definition column_of (sup : nat -> list nat) (c q : nat) : nat :=
  length (concat (map sup (seq 0 c))) + q.

(** Number of samples of a class whose coefficient counts. *)
Definition count_of (D : labelled) (meps : Q) (al : nat -> Q) (c : nat) (n : nat) : Prop :=
  exists l, NoDup l /\ length l = n /\
    forall s, In s l <-> s < samples D /\ label D s = c /\ (meps < Qabs (al s))%Q.

(** Feature [j] of sample [s] in the user's matrix. *)
Definition entry (column_major : bool) (X : nat -> Q) (ldx s j : nat) : Q :=
  if column_major then X (s + j * ldx) else X (s * ldx + j).
