(** Classes predicted from neighbours, and the results of a radius search:
    source/core/nearest_neighbors/nearest_neighbors.cpp.

    In double precision.  [None] is an access outside an array.  Integers do not overflow. *)
From Coq Require Import ZArith List Bool.
From Flocq Require Import Core IEEE754.BinarySingleNaN.
From Verif Require Import Base Par F64 UtilModel TreeSearchModel NnModel.
Import ListNotations.
Local Open Scope Z_scope.

Definition zero64 : f64 := f64_of_Z 0.
Definition one64 : f64 := f64_of_Z 1.
(** std::numeric_limits<double>::epsilon() *)
Definition eps64 : f64 := f64_div one64 (f64_of_Z (2 ^ 52)).

(** available_classes, lines 1062-1087: a std::set of the labels, copied in its order *)
Fixpoint set_insert (x : Z) (l : list Z) : list Z :=
  match l with
  | [] => [x]
  | y :: l' => if x <? y then x :: l else if x =? y then l else y :: set_insert x l'
  end.
Definition available_classes (y : list Z) : list Z := fold_left (fun s x => set_insert x s) y [].

(** get_weights, lines 1021-1033 *)
Definition distance_weight (d : f64) : f64 := if f64_le d eps64 then one64 else f64_div one64 d.
(** option "weights" *)
Inductive weighting : Type := Uniform | ByDistance.
(** what a neighbour counts: 1 (line 1234: [proba++]) or its weight (line 1258) *)
Definition weight_of (w : weighting) (d : f64) : f64 :=
  match w with Uniform => one64 | ByDistance => distance_weight d end.
(** lines 1215-1218: the labels of the neighbours *)
Fixpoint votes (w : weighting) (y : list Z) (nb : list (Z * f64)) : option (list (Z * f64)) :=
  match nb with
  | [] => Some []
  | (i, d) :: nb' =>
      if i <? 0 then None
      else bind (nth_error y (Z.to_nat i)) (fun l =>
           bind (votes w y nb') (fun vs => Some ((l, weight_of w d) :: vs)))
  end.
(** lines 1228-1242, 1253-1263 and, for the radius search, 1406-1420, 1450-1463 *)
Definition class_sum (vs : list (Z * f64)) (c : Z) : f64 :=
  fold_left (fun a v => if c =? fst v then f64_add a (snd v) else a) vs zero64.
Definition proba_row (classes : list Z) (vs : list (Z * f64)) : list f64 :=
  let sums := map (class_sum vs) classes in
  let denominator := fold_left f64_add sums zero64 in
  map (fun s => f64_div s denominator) sums.
(** cblas_iamax (external): the first place with the largest absolute value *)
Fixpoint iamax_from (l : list f64) (i best : nat) (value : f64) : nat :=
  match l with
  | [] => best
  | x :: l' => if f64_lt value (f64_abs x) then iamax_from l' (S i) i (f64_abs x) else iamax_from l' (S i) best value
  end.
Definition iamax (l : list f64) : nat :=
  match l with [] => O | x :: l' => iamax_from l' 1 O (f64_abs x) end.
(** predict, lines 1565-1573 *)
Definition label_of_row (classes : list Z) (row : list f64) : Z := nth (iamax row) classes 0.

(** The neighbours that predict uses, lines 1188-1207: the arrays of the threads have [k] entries, zero at first (line 629:
    resize), and all of them are sorted and copied (lines 712, 771), found or not.  [k] is the option; unlike in kneighbors
    (line 976) it is not compared with the number of samples. *)
Definition predict_neighbours (v k : nat) (D : Z -> f64) (n_samples max_block : Z) (threads : list (list Z)) pw
  : list (Z * f64) :=
  let N := arith64 pw in
  let found := brute_candidates N (lt N) (le N) v k (brute_entries D n_samples max_block threads) in
  stable_sort (lt N) (found ++ repeat (0, zero64) (k - length found)).

(** ** A handle and its labels *)
(** members y_train_class, classes, classes_computed, most_frequent_label(_computed), manual_label_index,
    manual_outlier_label_checked, manual_label *)
Record labelled : Type := Labelled {
  y_train : list Z; classes : list Z; classes_computed : bool;
  most_frequent_label : Z; most_frequent_computed : bool;
  manual_index : Z; manual_checked : bool; manual_label : Z }.
Definition new_labelled : labelled := Labelled [] [] false (-1) false (-1) false (-1).
(** set_labels, lines 516-539 *)
Definition set_labels (h : labelled) (y : list Z) : labelled :=
  Labelled y (classes h) (classes_computed h) (most_frequent_label h) (most_frequent_computed h)
    (manual_index h) (manual_checked h) (manual_label h).
(** lines 1175-1178 *)
Definition need_classes (h : labelled) : labelled :=
  if classes_computed h then h
  else Labelled (y_train h) (available_classes (y_train h)) true (most_frequent_label h) (most_frequent_computed h)
         (manual_index h) (manual_checked h) (manual_label h).
(** predict_proba_compute_knn, lines 1160-1274, for one query *)
Definition proba_knn (h : labelled) (w : weighting) (nb : list (Z * f64)) : option (list f64) :=
  let h := need_classes h in bind (votes w (y_train h) nb) (fun vs => Some (proba_row (classes h) vs)).
(** predict for one query and k neighbours *)
Definition predict_knn (h : labelled) (w : weighting) (nb : list (Z * f64)) : option (labelled * Z) :=
  let h := need_classes h in
  bind (votes w (y_train h) nb) (fun vs => Some (h, label_of_row (classes h) (proba_row (classes h) vs))).

(** most_frequent_element, lines 1037-1060; the map as the sorted list of the elements with their numbers *)
Definition frequency (x : list Z) (v : Z) : Z := Z.of_nat (count_occ Z.eq_dec x v).
Definition most_frequent_element (x : list Z) : Z :=
  snd (fold_left (fun '(mf, e) v =>
         if (mf <? frequency x v) || ((frequency x v =? mf) && (v <? e)) then (frequency x v, v) else (mf, e))
       (available_classes x) (0, hd 0 x)).

(** ** Radius search: samples without neighbours *)
Inductive outliers : Type := ONone | OManual | OMostFrequent.
(** lines 1305-1322.  std::find *)
Fixpoint find_index (l : list Z) (v i : Z) : Z :=
  match l with [] => -1 | x :: l' => if x =? v then i else find_index l' v (i + 1) end.
Definition prepare (h : labelled) (oh : outliers) : labelled :=
  let h := need_classes h in
  match oh with
  | ONone => h
  | OMostFrequent =>
      if most_frequent_computed h then h
      else Labelled (y_train h) (classes h) (classes_computed h) (most_frequent_element (y_train h)) true
             (manual_index h) (manual_checked h) (manual_label h)
  | OManual =>
      if manual_checked h then h
      else Labelled (y_train h) (classes h) (classes_computed h) (most_frequent_label h) (most_frequent_computed h)
             (find_index (classes h) (manual_label h) 0) true (manual_label h)
  end.
(** check_options_update, lines 406-420: the label is an option *)
Definition set_manual_label (h : labelled) (l : Z) : labelled :=
  if l =? manual_label h then h
  else Labelled (y_train h) (classes h) (classes_computed h) (most_frequent_label h) (most_frequent_computed h)
         (manual_index h) false l.

(** The array of probabilities, one row per query behind the other *)
Definition store_row (a : Z -> f64) (at_ : Z) (row : list f64) : Z -> f64 :=
  fun q => if (at_ <=? q) && (q <? at_ + Z.of_nat (length row)) then nth (Z.to_nat (q - at_)) row zero64 else a q.
(** lines 1348-1423 and 1425-1466, query [j]; [len]: size of the array.  [inl]: da_status_operation_failed. *)
Definition radius_query (h : labelled) (w : weighting) (oh : outliers) (len : Z) (a : Z -> f64) (j : Z) (nb : list (Z * f64))
  : option (unit + (Z -> f64)) :=
  let nc := Z.of_nat (length (classes h)) in
  match nb with
  | [] =>
      match oh with
      | ONone => Some (inl tt)
      | OManual =>
          let a := store_row a (j * nc) (repeat zero64 (length (classes h))) in
          if manual_index h =? -1 then Some (inr a)
          else (* line 1377: [proba[classes[this->manual_label_index] + j_local] = 1.0] *)
            let at_ := nth (Z.to_nat (manual_index h)) (classes h) 0 + j * nc in
            if (0 <=? at_) && (at_ <? len) then Some (inr (store_at a at_ one64)) else None
      | OMostFrequent =>
          Some (inr (store_row a (j * nc) (map (fun c => if c =? most_frequent_label h then one64 else zero64) (classes h))))
      end
  | _ => bind (votes w (y_train h) nb) (fun vs => Some (inr (store_row a (j * nc) (proba_row (classes h) vs))))
  end.
Fixpoint radius_queries (h : labelled) (w : weighting) (oh : outliers) (len : Z) (a : Z -> f64) (j : Z)
    (nbs : list (list (Z * f64))) : option (unit + (Z -> f64)) :=
  match nbs with
  | [] => Some (inr a)
  | nb :: nbs' =>
      match radius_query h w oh len a j nb with
      | Some (inr a) => radius_queries h w oh len a (j + 1) nbs'
      | r => r
      end
  end.
(** predict_proba_compute_rnn, lines 1276-1482, the neighbours being given *)
Definition radius_proba (h : labelled) (w : weighting) (oh : outliers) (nbs : list (list (Z * f64)))
  : option (unit + (Z -> f64)) :=
  let h := prepare h oh in
  radius_queries h w oh (Z.of_nat (length nbs) * Z.of_nat (length (classes h))) (fun _ => zero64) 0 nbs.
Definition row_of (a : Z -> f64) (nc j : Z) : list f64 := map (fun i => a (i + j * nc)) (zrange nc).
(** predict, lines 1561-1594 *)
Definition radius_label (h : labelled) (oh : outliers) (row : list f64) : Z :=
  let none_ := f64_eq (nth (iamax row) row zero64) zero64 in
  match oh with
  | ONone => label_of_row (classes h) row
  | OManual => if none_ then manual_label h else label_of_row (classes h) row
  | OMostFrequent => if none_ then most_frequent_label h else label_of_row (classes h) row
  end.
(** [None]: access outside an array; [Some None]: an error *)
Definition radius_predict (h : labelled) (w : weighting) (oh : outliers) (nbs : list (list (Z * f64)))
  : option (option (list Z)) :=
  match radius_proba h w oh nbs with
  | None => None
  | Some (inl _) => Some None
  | Some (inr a) =>
      let h := prepare h oh in
      let nc := Z.of_nat (length (classes h)) in
      Some (Some (map (fun j => radius_label h oh (row_of a nc j)) (zrange (Z.of_nat (length nbs)))))
  end.

(** ** Results of a radius search *)
(** [indices j]: the neighbours found for query [j] *)
Definition count_of (found : list (list Z)) : list Z := map (fun l => Z.of_nat (length l)) found.
(** lines 209-221 with radius_neighbors_count_internal, lines 2274-2284; [dim]: the size given by the caller.  [inl n]: the
    array is too small, [n] are needed. *)
Definition result_count (found : list (list Z)) (dim : Z) : option (Z + list Z) :=
  let n := Z.of_nat (length found) in
  if dim <? n + 1 then Some (inl (n + 1))
  else
    if forallb (fun i => i <? n) (zrange (dim - 1)) then
      let c := map (fun i => nth (Z.to_nat i) (count_of found) 0) (zrange (dim - 1)) in
      Some (inr (c ++ [fold_left Z.add c 0]))
    else None.
(** lines 223-244 *)
Fixpoint offsets_from (offset : Z) (found : list (list Z)) : list Z :=
  match found with
  | [] => [offset]
  | l :: found' =>
      if 0 <? Z.of_nat (length l) then offset :: offsets_from (offset + Z.of_nat (length l)) found'
      else -1 :: offsets_from offset found'
  end.
Definition result_offsets (found : list (list Z)) (dim : Z) : Z + list Z :=
  let n := Z.of_nat (length found) in
  if dim <? n + 1 then inl (n + 1) else inr (offsets_from 0 found).
(** lines 266-285 *)
Definition result_indices (found : list (list Z)) (dim : Z) : Z + list Z :=
  let total := fold_left Z.add (count_of found) 0 in
  if dim <? total then inl total else inr (concat found).
(** nn_classes, nearest_neighbors_public.hpp lines 79-99: [inl]: the number *)
Definition nn_classes (h : labelled) (n : Z) : option (labelled * (Z + list Z)) :=
  if n <=? 0 then
    let h := Labelled (y_train h) (available_classes (y_train h)) true (most_frequent_label h) (most_frequent_computed h)
               (manual_index h) (manual_checked h) (manual_label h) in
    Some (h, inl (Z.of_nat (length (classes h))))
  else if n <=? Z.of_nat (length (classes h)) then Some (h, inr (firstn (Z.to_nat n) (classes h)))
  else None.

(** The distances of a radius search, lines 1919-1938, 2043-2070, 2301-2325: [roots]: get_squares. *)
Record radius_result : Type := RadiusResult { stored : list f64; have : bool; sort_results : bool; return_distances : bool }.
(** A call of radius_neighbors: the two flags are copied before the arguments are checked; [found]: the distances the search
    has if the arguments are accepted *)
Definition radius_call (roots : bool) (s : radius_result) (return_distance sorted : bool) (found : option (list f64))
  : radius_result :=
  if negb return_distance && sorted then s
  else match found with
       | None => RadiusResult (stored s) (have s) sorted return_distance
       | Some ds =>
           let ds := if sorted then map (if roots then f64_sqrt else fun d => d)
                                      (map snd (stable_sort f64_lt (map (fun d => (0, d)) ds))) else ds in
           RadiusResult (if return_distance then ds else []) true sorted return_distance
       end.
Definition radius_distances (roots : bool) (s : radius_result) : option (list f64) :=
  if have s && return_distances s then
    Some (if negb (sort_results s) && roots then map f64_sqrt (stored s) else stored s)
  else None.

(** ** radius_neighbors_compute_brute_force, lines 2096-2237, for one query: what each thread finds in its blocks; the first
    thread's list takes the others' in. *)
Definition radius_brute (D : Z -> f64) (r : f64) (n_samples max_block : Z) (threads : list (list Z)) : list (Z * f64) :=
  concat (map (fun blocks => filter (fun e => f64_le (snd e) r) (concat blocks)) (brute_entries D n_samples max_block threads)).
