(** Model of [da_interval::interval] and [da_interval::interval_set]
    (source/core/data_management/interval.hpp, interval_set.hpp, interval_set.cpp).

    A [std::set<interval, comp_interval_set>] is the strictly increasing list of its elements.
    Elements of a [std::set] are unique and iterators are stable, so an iterator is modelled by
    the element it designates: [Some x], or [None] for [end()].  A range of positions starting at
    an iterator is a suffix of the list. *)
From Coq Require Import ZArith List Bool.
Import ListNotations.
Local Open Scope Z_scope.

(** interval.hpp:35-36 *)
Record interval := mkI { lower : Z; upper : Z }.

(** interval.hpp:43 *)
Definition contains (i : interval) (v : Z) : bool := (lower i <=? v) && (v <=? upper i).

(** interval.hpp:44-48 *)
Definition intersect (a b : interval) : interval :=
  mkI (Z.max (lower a) (lower b)) (Z.min (upper a) (upper b)).

(** interval.hpp:49-55 *)
Definition is_valid_idx (i : interval) (max_val : Z) : bool :=
  if upper i <? lower i then false
  else if (lower i <? 0) || (max_val <=? upper i) then false else true.

Definition ieqb (a b : interval) : bool := (lower a =? lower b) && (upper a =? upper b).

(** interval_set.hpp:38-45 ([comp_interval_set], lexicographic order) *)
Definition iltb (a b : interval) : bool :=
  if lower a =? lower b then upper a <? upper b else lower a <? lower b.

Definition iset := list interval.

(** [std::set::insert] of one element. *)
Fixpoint set_insert (x : interval) (s : iset) : iset :=
  match s with
  | [] => [x]
  | y :: r => if iltb x y then x :: s else if iltb y x then y :: set_insert x r else s
  end.

(** [std::set::erase(iterator)]. *)
Fixpoint set_erase (x : interval) (s : iset) : iset :=
  match s with
  | [] => []
  | y :: r => if ieqb y x then r else y :: set_erase x r
  end.

Inductive status := success | invalid_input.

(** The search loop common to insert and erase (interval_set.cpp:42-46 and 123-127).
    The first component is the suffix starting at [it_upper], the second is [it_lower]. *)
Fixpoint search_loop (lb ub : Z) (it_upper : iset) (it_lower : option interval)
  : iset * option interval :=
  match it_upper with
  | [] => ([], it_lower)
  | x :: r =>
      if upper x <? ub then
        search_loop lb ub r
          (match r with
           | y :: _ => if lower y <=? lb then Some y else it_lower
           | [] => it_lower
           end)
      else (it_upper, it_lower)
  end.

(** interval_set.cpp:40-48 and 121-129: both iterators start at [begin()], and [it_lower] is
    reset to [end()] when its lower bound exceeds [lb]. *)
Definition search (lb ub : Z) (s : iset) : option interval * option interval :=
  let '(su, il) := search_loop lb ub s (hd_error s) in
  let il := match il with
            | Some x => if lb <? lower x then None else Some x
            | None => None
            end in
  (il, hd_error su).

Definition oeqb (a b : option interval) : bool :=
  match a, b with
  | None, None => true
  | Some x, Some y => ieqb x y
  | _, _ => false
  end.

(** [while (it != end && it != stop) it = erase(it)] on the suffix starting at [it]
    (interval_set.cpp:61-63, 139-141). *)
Fixpoint erase_until (stop : option interval) (suffix : iset) : iset :=
  match suffix with
  | [] => []
  | x :: r => if oeqb (Some x) stop then suffix else erase_until stop r
  end.

(** interval_set.cpp:56-63, 134-141: the loop starts after [it_lower], or at [begin()] when
    [it_lower] is [end()]. *)
Fixpoint erase_after (a : interval) (stop : option interval) (s : iset) : iset :=
  match s with
  | [] => []
  | x :: r => if ieqb x a then x :: erase_until stop r else x :: erase_after a stop r
  end.

Definition erase_between (il : option interval) (stop : option interval) (s : iset) : iset :=
  match il with
  | Some a => erase_after a stop s
  | None => erase_until stop s
  end.

(** The containment test of interval_set.cpp:51-53 on one iterator. *)
Definition covers (it : option interval) (lb ub : Z) : bool :=
  match it with
  | Some x => (lower x <=? lb) && (ub <=? upper x)
  | None => false
  end.

(** interval_set.cpp:34-77 *)
Definition insert (b : interval) (s : iset) : status * iset :=
  let lb := lower b in
  let ub := upper b in
  if ub <? lb then (invalid_input, s)
  else
    let '(il, iu) := search lb ub s in
    if covers il lb ub || covers iu lb ub then (success, s)
    else
      let s := erase_between il iu s in
      let '(lb, s) :=
        match il with
        | Some x => if lb - 1 <=? upper x then (lower x, set_erase x s) else (lb, s)
        | None => (lb, s)
        end in
      let '(ub, s) :=
        match iu with
        | Some x => if lower x <=? ub + 1 then (upper x, set_erase x s) else (ub, s)
        | None => (ub, s)
        end in
      (success, set_insert (mkI lb ub) s).

(** The pieces of an interval left after removing [lb,ub] (interval_set.cpp:147-155, 158-166). *)
Definition trim (lb ub : Z) (x : interval) (s : iset) : iset :=
  let s := set_erase x s in
  let s := if lower x + 1 <=? lb then set_insert (mkI (lower x) (lb - 1)) s else s in
  if ub <=? upper x - 1 then set_insert (mkI (ub + 1) (upper x)) s else s.

(** interval_set.cpp:114-169 *)
Definition erase (b : interval) (s : iset) : status * iset :=
  let lb := lower b in
  let ub := upper b in
  if ub <? lb then (invalid_input, s)
  else
    let '(il, iu) := search lb ub s in
    let is_included := oeqb il iu in
    let s := if is_included then s else erase_between il iu s in
    let s := match il with
             | Some x => if lb <=? upper x then trim lb ub x s else s
             | None => s
             end in
    let s := match iu with
             | Some x => if negb is_included && (lower x <=? ub) then trim lb ub x s else s
             | None => s
             end in
    (success, s).

(** [std::set::upper_bound]: the predecessor (if any) and the suffix starting at the first element
    greater than [k]. *)
Fixpoint upper_bound (k : interval) (prev : option interval) (s : iset)
  : option interval * iset :=
  match s with
  | [] => (prev, [])
  | x :: r => if iltb k x then (prev, s) else upper_bound k (Some x) r
  end.

(** interval_set.cpp:79-96 and 98-112 (both overloads of find compute the same interval).
    Decrementing [begin()] would be undefined: outcome [FindUB]. *)
Inductive find_result := Found (i : interval) | NotFound | FindUB.

Definition find (key : Z) (s : iset) : find_result :=
  match s with
  | [] => NotFound
  | _ =>
      let '(prev, suf) := upper_bound (mkI key key) None s in
      let last_step it :=
        match it with
        | Some x => if contains x key then Found x else NotFound
        | None => FindUB
        end in
      match suf with
      | [] => last_step prev
      | x :: _ =>
          if contains x key then Found x
          else match prev with
               | None => last_step (Some x)              (* it_ub == begin(): no decrement *)
               | Some y => if key <? lower x then last_step prev else last_step (Some x)
               end
      end
  end.

(** interval_set.cpp:171 *)
Definition clear (s : iset) : iset := [].

(** Operations of a selection and their histories. *)
Inductive op := OInsert (b : interval) | OErase (b : interval) | OClear.

Definition step (s : iset) (o : op) : iset :=
  match o with
  | OInsert b => snd (insert b s)
  | OErase b => snd (erase b s)
  | OClear => clear s
  end.

Definition run (ops : list op) : iset := fold_left step ops [].
