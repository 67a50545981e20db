(** Column labels: what a history of calls tells about them. *)
From Coq Require Import ZArith List Bool.
From Verif Require Import Base IntervalModel StoreModel StoreSpec StoreSelSpec.
Import ListNotations.
Local Open Scope Z_scope.

Section Label.
  Variable V : Type.
  Variable is_missing : V -> bool.

  (** Calls on one store, labelling included. *)
  Inductive lcall := Other (c : scall V) | Label (l : str) (i : Z).
  Definition lcall_store (c : lcall) (s : store V) : option (da_status * store V) :=
    match c with
    | Other c => scall_store is_missing c s
    | Label l i => Some (label_column l i s)
    end.
  Fixpoint lrun_store (h : list lcall) (s : store V) : option (list da_status * store V) :=
    match h with
    | [] => Some ([], s)
    | c :: r =>
        match lcall_store c s with
        | None => None
        | Some (st, s') =>
            match lrun_store r s' with Some (l, t) => Some (st :: l, t) | None => None end
        end
    end.

  (** The labellings that were accepted, oldest first. *)
  Fixpoint accepted (h : list lcall) (l : list da_status) : list (str * Z) :=
    match h, l with
    | Label x i :: r, st_success :: k => (x, i) :: accepted r k
    | _ :: r, _ :: k => accepted r k
    | _, _ => []
    end.
End Label.
Arguments Other {V}. Arguments Label {V}. Arguments lcall_store {V}. Arguments lrun_store {V}.
Arguments accepted {V}.

(** The column first given a label, and the label last given to a column. *)
Definition first_column (x : str) (e : list (str * Z)) : option Z :=
  option_map snd (List.find (fun p => str_eqb x (fst p)) e).
Definition last_label (i : Z) (e : list (str * Z)) : option str :=
  option_map fst (List.find (fun p => i =? snd p) (rev e)).
