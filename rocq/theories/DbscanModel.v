(** Model of the DBSCAN clustering step (source/core/clustering/dbscan/dbscan.cpp).

    The neighbour lists are given: [nb i] are the samples within the radius of sample [i], [i] itself
    excluded.  Samples are numbered from 0 to [n - 1]; arrays are functions on indices. *)
From Coq Require Import ZArith List Bool.
From Verif Require Import Base Par UtilModel.
Import ListNotations.
Local Open Scope Z_scope.

(** dbscan.cpp:46-47 *)
Definition UNVISITED : Z := -2.
Definition NOISE : Z := -1.

Section Dbscan.
Variable n : Z.
Variable nb : Z -> list Z.
Variable min_samples : Z.

(** dbscan_clusters, lines 462-471 *)
Definition core (i : Z) : bool := min_samples - 1 <=? Z.of_nat (length (nb i)).
Definition n_core_samples : Z := Z.of_nat (length (filter core (zrange n))).

(** ** dbscan_clusters_serial, lines 398-455 *)
(** lines 422-441: the search of cluster [c]; the part of [search_indices] not yet looked at is [todo].
    [fuel] bounds the number of times it is extended; [None]: not enough *)
Fixpoint expand (fuel : nat) (c : Z) : list Z -> (Z -> Z) -> option (Z -> Z) :=
  fix search (todo : list Z) (labels : Z -> Z) {struct todo} : option (Z -> Z) :=
    match todo with
    | [] => Some labels
    | neigh :: todo' =>
        if labels neigh =? NOISE then search todo' (store_at labels neigh c)
        else if negb (labels neigh =? UNVISITED) then search todo' labels
        else
          let labels := store_at labels neigh c in
          if core neigh then
            match fuel with
            | O => None
            | S fuel' => expand fuel' c (todo' ++ nb neigh) labels
            end
          else search todo' labels
    end.
(** lines 406-445, the iteration for sample [i] *)
Definition serial_step (s : option ((Z -> Z) * Z)) (i : Z) : option ((Z -> Z) * Z) :=
  match s with
  | None => None
  | Some (labels, n_clusters) =>
      if negb (labels i =? UNVISITED) then Some (labels, n_clusters)
      else if negb (core i) then Some (store_at labels i NOISE, n_clusters)
      else
        match expand (Z.to_nat n) n_clusters (nb i) (store_at labels i n_clusters) with
        | None => None
        | Some labels => Some (labels, n_clusters + 1)
        end
  end.
Definition dbscan_clusters_serial : option ((Z -> Z) * Z) :=
  fold_left serial_step (zrange n) (Some (fun _ => UNVISITED, 0)).

(** ** dbscan_clusters_parallel, lines 295-395 *)
(** Lines 319-352: one iteration of the first loop as a sequence of atomic steps.  The label read last by
    the iteration for sample [i] is [tmp i].  The accesses to duplicate_labels, which are not atomic in
    the code, are steps of their own. *)
Inductive action :=
| ReadLabel (i x : Z)       (* tmp_label = labels[x] *)
| WriteLabel (i x : Z)      (* if (i < tmp_label || tmp_label == NOISE) labels[x] = i *)
| Duplicate (x y : Z).      (* duplicate_labels[x] = y *)
Definition link (i j : Z) : action := if i <? j then Duplicate j i else Duplicate i j.
Definition iteration (i : Z) : list action :=
  if core i then
    ReadLabel i i :: WriteLabel i i :: flat_map (fun j => [ReadLabel i j; link i j; WriteLabel i j]) (nb i)
  else [].
Definition first_loop : list (list action) := map iteration (zrange n).

Record shared := Shared { labels : Z -> Z; duplicate : Z -> Z; tmp : Z -> Z }.
Definition start : shared := Shared (fun _ => NOISE) (fun _ => NOISE) (fun _ => NOISE).
Definition act (s : shared) (a : action) : shared :=
  match a with
  | ReadLabel i x => Shared (labels s) (duplicate s) (store_at (tmp s) i (labels s x))
  | WriteLabel i x =>
      if (i <? tmp s i) || (tmp s i =? NOISE) then Shared (store_at (labels s) x i) (duplicate s) (tmp s) else s
  | Duplicate x y => Shared (labels s) (store_at (duplicate s) x y) (tmp s)
  end.

(** lines 361-364; [None]: more than [fuel] steps *)
Fixpoint follow (fuel : nat) (dup : Z -> Z) (label : Z) : option Z :=
  if dup label =? NOISE then Some label
  else match fuel with
       | O => None
       | S fuel' => follow fuel' dup (dup label)
       end.
(** lines 354-367; every iteration uses its own element of labels only *)
Fixpoint second_loop (s : shared) (is : list Z) (lab : Z -> Z) : option (Z -> Z) :=
  match is with
  | [] => Some lab
  | i :: is' =>
      if lab i =? NOISE then second_loop s is' lab
      else match follow (Z.to_nat n) (duplicate s) (lab i) with
           | None => None
           | Some l => second_loop s is' (store_at lab i l)
           end
  end.
(** lines 371-383 *)
Definition remap_step (lab : Z -> Z) (r : (Z -> Z) * Z) (i : Z) : (Z -> Z) * Z :=
  let '(remap, next_id) := r in
  if lab i =? NOISE then r
  else if remap (lab i) =? NOISE then (store_at remap (lab i) next_id, next_id + 1) else r.
(** lines 385-391 *)
Definition relabel (remap lab : Z -> Z) (i : Z) : Z := if lab i =? NOISE then NOISE else remap (lab i).

(** The result after the first loop ran as [tr]. *)
Definition dbscan_clusters_parallel (tr : list action) : option ((Z -> Z) * Z) :=
  let s := fold_left act tr start in
  match second_loop s (zrange n) (labels s) with
  | None => None
  | Some lab =>
      let '(remap, n_clusters) := fold_left (remap_step lab) (zrange n) (fun _ => NOISE, 0) in
      Some (relabel remap lab, n_clusters)
  end.
End Dbscan.
