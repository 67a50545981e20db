(** The inverted file index of the approximate nearest neighbours:
    source/core/approximate_neighbors/approximate_neighbors.cpp.  Rows are opaque ([V]); [D q r] is the number that
    the products of matrices give for a query and a row: a squared distance, or minus an inner product (of normalised
    rows for cosines).  Not modelled: storage orders, the normalisation, the transposition of the answers, the final
    square roots and signs, failing allocations, the option "algorithm" (one value), the seed. *)
From Coq Require Import ZArith QArith Qround List Bool.
From Verif Require Import Base Par UtilModel TreeSearchModel NnModel.
Import ListNotations.
Local Open Scope Z_scope.

Section Ivf.
Context {T V : Type} (N : arith T) (D : V -> V -> T) (inf : T) (row0 : V).

(** The options read by the index, approximate_neighbors_options.hpp lines 50-100 (n_list, n_probe, number of neighbors >= 1,
    0 < train fraction <= 1) *)
Record options : Type := Options { o_n_list : Z; o_n_probe : Z; o_neighbors : Z; o_fraction : Q; o_metric : Z }.

(** The members of the class; list [j] of the index is [global_indices j], [indexed_vectors j], [list_sizes j] and
    [old_list_sizes j]. *)
Record ivf : Type := Ivf {
  opts : options;
  train_data_is_set : bool; model_trained : bool; data_is_added : bool;
  X_train : list V; n_samples_train : Z;
  n_list : Z; metric : Z; centroids : list V;
  list_sizes : list nat; old_list_sizes : list nat;
  global_indices : list (list Z); indexed_vectors : list (list V);
  n_index : Z }.

Inductive status : Type := Success | No_data | Invalid_dimension | Option_locked | Invalid_input.

(** a handle after da_handle_init *)
Definition fresh (o : options) : ivf := Ivf o false false false [] 0 0 0 [] [] [] [] [] 0.

(** set_training_data, lines 187-231; the checks of the array left out *)
Definition set_training_data (s : ivf) (X : list V) : ivf * status :=
  (Ivf (opts s) true false false X (Z.of_nat (length X)) (n_list s) (metric s) (centroids s)
     (list_sizes s) (old_list_sizes s) (global_indices s) (indexed_vectors s) 0, Success).

(** da_options_set: the options change, the handle is not told (no refresh in this class) *)
Definition set_options (s : ivf) (o : options) : ivf :=
  Ivf o (train_data_is_set s) (model_trained s) (data_is_added s) (X_train s) (n_samples_train s) (n_list s) (metric s)
    (centroids s) (list_sizes s) (old_list_sizes s) (global_indices s) (indexed_vectors s) (n_index s).

(** the number of rows that k-means is given, lines 378-383; the product is exact here *)
Definition rows_for_training (nst : Z) (f : Q) (nl : Z) : Z :=
  if Qle_bool 1 f then nst else Z.max (Qfloor (inject_Z nst * f)) nl.

(** std::vector::resize of the vector of lists followed by clear of every list, lines 353-361 *)
Definition cleared {A} (nl : Z) : list (list A) := repeat [] (Z.to_nat nl).

(** train, lines 492-523, with read_training_options, lines 233-274, and train_ivfflat, lines 334-489.
    [kmeans rows nl]: the centroids found by k-means among [rows] rows *)
Variable kmeans : Z -> Z -> list V.
Definition train (s : ivf) : ivf * status :=
  if train_data_is_set s then
    let nl := o_n_list (opts s) in
    if Z.of_nat (length (X_train s)) <? nl then
      (Ivf (opts s) true (model_trained s) (data_is_added s) (X_train s) (n_samples_train s) nl (metric s) (centroids s)
         (list_sizes s) (old_list_sizes s) (global_indices s) (indexed_vectors s) (n_index s), Invalid_dimension)
    else
      let nst := rows_for_training (n_samples_train s) (o_fraction (opts s)) nl in
      (Ivf (opts s) true true (data_is_added s) (X_train s) nst nl (o_metric (opts s)) (kmeans nst nl)
         (repeat O (Z.to_nat nl)) (repeat O (Z.to_nat nl)) (cleared nl) (cleared nl) (n_index s), Success)
  else (s, No_data).

(** check_options_update, lines 152-185 *)
Definition options_agree (s : ivf) : bool := (o_n_list (opts s) =? n_list s) && (o_metric (opts s) =? metric s).

(** std::min_element over the distances to the centroids, lines 734-739: the position of the first smallest *)
Fixpoint argmin_loop (l : list T) (i best : nat) (b : T) : nat :=
  match l with
  | [] => best
  | x :: l => if lt N x b then argmin_loop l (S i) i x else argmin_loop l (S i) best b
  end.
Definition argmin (l : list T) : nat := match l with [] => O | x :: l => argmin_loop l 1 0 x end.
Definition nearest_centroid (cs : list V) (r : V) : nat := argmin (map (D r) cs).

(** phase 2, lines 748-754: the rows of the call that go to list [c], in order, and their numbers in the index *)
Definition local_indices (cs : list V) (rows : list V) (c : nat) : list nat :=
  filter (fun i => Nat.eqb (nearest_centroid cs (nth i rows row0)) c) (seq 0 (length rows)).
Definition push_indices (cs : list V) (rows : list V) (ni : Z) (c : nat) (g : list Z) : list Z :=
  g ++ map (fun i => Z.of_nat i + ni) (local_indices cs rows c).
(** resize and the loop over the rows added to list [c], lines 763-838: positions [old], .., [new] - 1 are written *)
Definition store_rows (rows : list V) (local : list nat) (old new : nat) (v : list V) : list V :=
  map (fun i => if (i <? old)%nat then nth i v row0 else nth (nth (i - old) local O) rows row0) (seq 0 new).

(** add, lines 525-562, with add_ivfflat, lines 565-842.  [None]: an access to a list that does not exist *)
Definition add_rows (s : ivf) (rows : list V) : option (ivf * status) :=
  if negb (model_trained s) then Some (s, No_data)
  else if negb (options_agree s) then Some (s, Option_locked)
  else if (length (global_indices s) <? Z.to_nat (n_list s))%nat then None
  else
    let lists := seq 0 (Z.to_nat (n_list s)) in
    let olds := if data_is_added s then list_sizes s else old_list_sizes s in
    let loc := local_indices (centroids s) rows in
    let sizes := map (fun c => (nth c (list_sizes s) O + length (loc c))%nat) lists in
    Some (Ivf (opts s) (train_data_is_set s) true true (X_train s) (n_samples_train s) (n_list s) (metric s) (centroids s)
            sizes olds
            (map (fun c => push_indices (centroids s) rows (n_index s) c (nth c (global_indices s) [])) lists)
            (map (fun c => store_rows rows (loc c) (nth c olds O) (nth c sizes O) (nth c (indexed_vectors s) [])) lists)
            (n_index s + Z.of_nat (length rows)), Success).

(** ** Search: ivfflat_search_query_parallel, lines 963-1190, for one query *)

(** update_heaps_from_list_blk, lines 944-960, and the selection of the lists, lines 1110-1117: an entry goes to the heap if it is
    below the largest distance kept *)
Definition offer_entry (h : heap) (x : Z * T) : heap := if lt N (snd x) (max_dist N h) then insert N h x else h.
Definition offer_entries (h : heap) (l : list (Z * T)) : heap := fold_left offer_entry l h.
(** the lists probed, lines 1102-1123; [stale]: what the buffer of indices holds *)
Definition probes (n_probe : Z) (cs : list V) (q : V) (stale : Z -> Z) : list Z :=
  let entries := combine (zrange (Z.of_nat (length cs))) (map (D q) cs) in
  let h := offer_entries (heap_new n_probe (fun i => (stale i, highest N))) entries in
  map (fun i => fst (cells h i)) (zrange n_probe).
(** the blocks of [b] entries of a list, lines 1147-1168 *)
Fixpoint blocks {A} (fuel b : nat) (l : list A) : list (list A) :=
  match fuel, l with
  | O, _ | _, [] => []
  | S fuel, _ => firstn b l :: blocks fuel b (skipn b l)
  end.
Definition list_entries (q : V) (g : list Z) (v : list V) : list (Z * T) := combine g (map (D q) v).
(** the loop over the lists, lines 1125-1170, then the answer in order, lines 1172-1180.  [b]: list_blk_sz *)
Definition search (s : ivf) (n_probe k : Z) (b : nat) (stale : Z -> Z) (q : V) : list (Z * T) :=
  let p := probes n_probe (centroids s) q stale in
  let visit h j :=
    if existsb (Z.eqb (Z.of_nat j)) p then
      fold_left offer_entries
        (blocks (nth j (list_sizes s) O) b (list_entries q (nth j (global_indices s) []) (nth j (indexed_vectors s) []))) h
    else h in
  let h := fold_left visit (seq 0 (Z.to_nat (n_list s))) (heap_new k (fun _ => (-1, inf))) in
  stable_sort (lt N) (map (cells h) (zrange k)).

(** kneighbors, lines 859-940, for one query *)
Definition kneighbors (s : ivf) (k : Z) (b : nat) (stale : Z -> Z) (q : V) : option (status * list (Z * T)) :=
  if negb (model_trained s) then Some (No_data, [])
  else if negb (data_is_added s) then Some (No_data, [])
  else if negb (options_agree s) then Some (Option_locked, [])
  else
    let k := if k <=? 0 then o_neighbors (opts s) else k in
    if n_index s <? k then Some (Invalid_input, [])
    else if n_list s <? o_n_probe (opts s) then Some (Invalid_input, [])
    else if (length (global_indices s) <? Z.to_nat (n_list s))%nat then None
    else Some (Success, search s (o_n_probe (opts s)) k b stale q).

(** ** Calls on a handle *)
Inductive call : Type :=
| Set_options (o : options) | Set_data (X : list V) | Train | Add (rows : list V) | Search (k : Z) (q : V).
Definition run (b : nat) (stale : Z -> Z) (s : ivf) (c : call) : option (ivf * status) :=
  match c with
  | Set_options o => Some (set_options s o, Success)
  | Set_data X => Some (set_training_data s X)
  | Train => Some (train s)
  | Add rows => add_rows s rows
  | Search k q => match kneighbors s k b stale q with Some (st, _) => Some (s, st) | None => None end
  end.
(** the state and the statuses after a sequence of calls; [None] if one accesses memory out of bounds *)
Fixpoint run_all (b : nat) (stale : Z -> Z) (s : ivf) (l : list call) : option (ivf * list status) :=
  match l with
  | [] => Some (s, [])
  | c :: l =>
      match run b stale s c with
      | Some (s', st) => match run_all b stale s' l with Some (s'', sts) => Some (s'', st :: sts) | None => None end
      | None => None
      end
  end.
End Ivf.
Arguments Set_options {V}. Arguments Set_data {V}. Arguments Train {V}. Arguments Add {V}. Arguments Search {V}.
