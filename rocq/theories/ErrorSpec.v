(** Specification: the errors recorded since the last reset (clear or non stacking record). *)
From Coq Require Import List Bool.
From Verif Require Import Base ErrorModel.
Import ListNotations.

Notation entry := (da_status * str * severity)%type.

Fixpoint since_reset (acc : list entry) (ops : list eop) : list entry :=
  match ops with
  | [] => acc
  | EClear :: r => since_reset [] r
  | ERec st m _ _ sv true :: r => since_reset (acc ++ [(st, m, sv)]) r
  | ERec st m _ _ sv false :: r => since_reset [(st, m, sv)] r
  end.

(** The entries a trace holds, oldest first. *)
Definition entries_of (t : trace) : list entry :=
  combine (combine (status t) (mesg t)) (sev t).
