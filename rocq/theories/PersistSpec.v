(** Values a program can hold, and what a stored matrix must contain. *)
From Coq Require Import ZArith List Bool.
From Verif Require Import Base PersistModel.
Import ListNotations.
Local Open Scope Z_scope.

Definition scalar_ok (iw : Z) (s : sty) (z : Z) : Prop :=
  match s with
  | SBool => z = 0 \/ z = 1
  | SInt => - 2 ^ (8 * iw - 1) <= z < 2 ^ (8 * iw - 1)
  | SEnum => 0 <= z < 2 ^ 32
  | SChar => -128 <= z < 128
  | SF32 => 0 <= z < 2 ^ 32
  | SF64 => 0 <= z < 2 ^ 64
  end.

Inductive typed (iw : Z) : ty -> val -> Prop :=
| ty_scalar s z : scalar_ok iw s z -> typed iw (TS s) (VS s z)
| ty_vec t l : len l <= int_max iw -> (forall v, In v l -> typed iw t v) -> typed iw (TV t) (VV l).

(** Element (i,j) of the caller's matrix: where it is in memory. *)
Definition element_at (ord : order) (ldx i j : Z) : Z :=
  match ord with column_major => i + j * ldx | row_major => i * ldx + j end.
(** Position of element (i,j) in the packed copy. *)
Definition packed_at (ord : order) (m n i j : Z) : Z :=
  match ord with column_major => i + j * m | row_major => i * n + j end.

(** A buffer holds bytes; [sizeof(da_int)] is 4 or 8; announced size of several members. *)
Definition bytes_ok (l : list Z) : Prop := Forall (fun b => 0 <= b < 256) l.
Definition iw_ok (iw : Z) : Prop := iw = 4 \/ iw = 8.
Definition total_size (vs : list val) : Z := fold_right (fun x a => type_size x + a) 0 vs.
