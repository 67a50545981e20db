(** What a growable array is: a list of values, some of them not yet given ([None]: unspecified
    contents after growing).  Written without looking at buffers or capacities. *)
From Coq Require Import List Arith Bool.
From Verif Require Import VecModel.
Import ListNotations.

Section VecSpec.
  Variable T : Type.
  Notation cell := (option T).

  (** An array is either usable, with its contents, or has been moved from. *)
  Definition aenv := nat -> option (list cell).
  Definition aupd (a : aenv) (i : nat) (v : option (list cell)) : aenv :=
    fun j => if j =? i then v else a j.
  Definition contents (v : option (list cell)) : list cell :=
    match v with Some l => l | None => [] end.

  Definition resized (l : list cell) (n : nat) : list cell :=
    firstn n l ++ repeat None (n - length l).
  Definition set_nth (l : list cell) (k : nat) (x : cell) : list cell :=
    firstn k l ++ x :: skipn (S k) l.

  (** One operation on lists.  [None] means the caller breaks the contract: an index out of range,
      growing an array that was moved from, pushing an element of the array itself. *)
  Definition astep (o : op T) (a : aenv) : option (aenv * option cell) :=
    let keep a' := Some (a', None) in
    match o with
    | OpNew i | OpClear i => keep (aupd a i (Some []))
    | OpNewSized i n => keep (aupd a i (Some (repeat None n)))
    | OpMove i j => if i =? j then keep a else keep (aupd (aupd a i (a j)) j None)
    | OpCopy i j => keep (aupd a i (a j))
    | OpPush i x =>
        match a i with Some l => keep (aupd a i (Some (l ++ [Some x]))) | None => None end
    | OpPushElem i j k =>
        if i =? j then None
        else match a i, nth_error (contents (a j)) k with
             | Some l, Some x => keep (aupd a i (Some (l ++ [x])))
             | _, _ => None
             end
    | OpAppend i j =>
        match a i with
        | Some l => keep (aupd a i (Some (l ++ contents (a j))))
        | None => if length (contents (a j)) =? 0 then keep a else None
        end
    | OpAppendStd i l' =>
        match a i with Some l => keep (aupd a i (Some (l ++ map Some l'))) | None => None end
    | OpResize i n =>
        match a i with Some l => keep (aupd a i (Some (resized l n))) | None => None end
    | OpReserve i n => match a i with Some l => keep a | None => None end
    | OpWrite i k x =>
        let l := contents (a i) in
        if k <? length l then keep (aupd a i (Some (set_nth l k (Some x)))) else None
    | OpRead i k =>
        match nth_error (contents (a i)) k with Some x => Some (a, Some x) | None => None end
    end.

  Fixpoint arun (h : list (op T)) (a : aenv) : option (aenv * list cell) :=
    match h with
    | [] => Some (a, [])
    | o :: r =>
        match astep o a with
        | None => None
        | Some (a', out) =>
            match arun r a' with
            | None => None
            | Some (a'', outs) =>
                Some (a'', match out with Some c => c :: outs | None => outs end)
            end
        end
    end.
  Definition astart : aenv := fun _ => Some [].

  (** A real value matches a specified one when the latter is unspecified or equal. *)
  Definition cell_ok (s c : cell) : Prop := s = None \/ s = c.

  (** The visible contents of an array: its first [size()] elements. *)
  Definition visible (v : vec T) : list cell := firstn (vsize v) (bufcells v).

  (** Nothing is lost and every later access below the capacity is inside the allocation. *)
  Definition sound (v : vec T) : Prop :=
    vsize v <= vcap v /\ length (bufcells v) = vcap v.

  (** The array an operation may have to enlarge. *)
  Definition growing (o : op T) : option nat :=
    match o with
    | OpPush i _ | OpAppendStd i _ | OpResize i _ | OpReserve i _ => Some i
    | _ => None
    end.
End VecSpec.
Arguments contents {T}. Arguments resized {T}. Arguments set_nth {T}. Arguments astep {T}.
Arguments arun {T}. Arguments astart {T}. Arguments cell_ok {T}. Arguments visible {T}.
Arguments sound {T}. Arguments aupd {T}. Arguments growing {T}.
