(** Independent specification of index selections: a selection is a set of integers. *)
From Coq Require Import ZArith List.
From Verif Require Import IntervalModel.
Local Open Scope Z_scope.

Definition zset := Z -> Prop.

Definition s_empty : zset := fun _ => False.
Definition s_add (lb ub : Z) (A : zset) : zset := fun k => A k \/ (lb <= k <= ub).
Definition s_remove (lb ub : Z) (A : zset) : zset := fun k => A k /\ ~ (lb <= k <= ub).

(** [strictly_encloses lb ub A]: the range extends strictly beyond every element of the
    non-empty set [A], on both sides. *)
Definition strictly_encloses (lb ub : Z) (A : zset) : Prop :=
  (exists k, A k) /\ forall k, A k -> lb < k < ub.

(** A stored range list [(lower, upper)] is canonical when ranges are non-empty, ordered, disjoint
    and not adjacent. *)
Fixpoint canonical_from (lo : option Z) (l : list (Z * Z)) : Prop :=
  match l with
  | nil => True
  | cons (a, b) r =>
      (match lo with Some x => x + 1 < a | None => True end) /\ a <= b /\ canonical_from (Some b) r
  end.
Definition canonical (l : list (Z * Z)) : Prop := canonical_from None l.

(** The stored ranges as pairs. *)
Definition pairs (s : iset) : list (Z * Z) := map (fun i => (lower i, upper i)) s.

(** Intended meaning of a history. *)
Definition spec_step (A : zset) (o : op) : zset :=
  match o with
  | OInsert b => fun k => if upper b <? lower b then A k else s_add (lower b) (upper b) A k
  | OErase b => fun k => if upper b <? lower b then A k else s_remove (lower b) (upper b) A k
  | OClear => s_empty
  end.

Definition is_erase (o : op) : bool := match o with OErase _ => true | _ => false end.

(** Meaning of a history with the behaviour the code actually has: removing a range that
    strictly encloses the whole selection removes nothing. *)
Definition abs_step (A : zset) (o : op) : zset :=
  match o with
  | OInsert b => fun k => if upper b <? lower b then A k else s_add (lower b) (upper b) A k
  | OErase b => fun k =>
      if upper b <? lower b then A k
      else s_remove (lower b) (upper b) A k
           \/ (strictly_encloses (lower b) (upper b) A /\ A k)
  | OClear => s_empty
  end.

