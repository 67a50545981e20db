(** What a train/test split is, independently of how the copies are organised. *)
From Coq Require Import ZArith.
From Verif Require Import Base SplitModel.
Local Open Scope Z_scope.

(** Position of element (r, c) of a matrix with leading dimension [ld]. *)
Definition pos (o : order) (ld r c : Z) : Z :=
  match o with row_major => r * ld + c | _ => c * ld + r end.
(** [p] is the position of an element of a [rows] x [cols] matrix. *)
Definition inside (o : order) (ld rows cols p : Z) : Prop :=
  exists r c, 0 <= r < rows /\ 0 <= c < cols /\ p = pos o ld r c.

Definition ld_of (a : args) (t : target) := match t with Train => ldtr a | Test => ldte a end.
Definition rows_of (a : args) (t : target) := match t with Train => train a | Test => test a end.
(** The row of X that row [r] of the train (test) matrix must be. *)
Definition chosen (a : args) (t : target) (r : Z) : Z :=
  let k := match t with Train => r | Test => train a + r end in
  match shuffle a with None => k | Some f => f k end.

(** The documented constraints (aoclda_utils.h:138-155). *)
Definition constraints (a : args) : Prop :=
  nulX a = false /\ nulTrain a = false /\ nulTest a = false /\ 2 <= m a /\ 1 <= n a /\
  1 <= train a /\ 1 <= test a /\ train a + test a <= m a /\
  match ord a with
  | row_major => n a <= ldx a /\ n a <= ldtr a /\ n a <= ldte a
  | column_major => m a <= ldx a /\ train a <= ldtr a /\ test a <= ldte a
  | other_order => True
  end.
Definition indices_in_range (a : args) : Prop :=
  match shuffle a with
  | None => True
  | Some f => forall k, 0 <= k < train a + test a -> 0 <= f k < m a
  end.
