(** What an inverted file index has to hold and to return. *)
From Coq Require Import ZArith QArith Qround List Bool Reals Permutation Sorted.
From Verif Require Import Base Par UtilModel NnModel NnSpec IvfModel.
Import ListNotations.
Local Open Scope Z_scope.

Section Spec.
Context {T V : Type} (N : arith T) (num : T -> Prop) (key : T -> R) (D : V -> V -> T) (inf : T) (row0 : V).

(** [j] is the first of the centroids nearest to [r]. *)
Definition nearest_first (cs : list V) (r : V) (j : nat) : Prop :=
  (j < length cs)%nat /\
  forall i, (i < length cs)%nat ->
    (key (D r (nth j cs row0)) <= key (D r (nth i cs row0)))%R /\
    ((i < j)%nat -> (key (D r (nth j cs row0)) < key (D r (nth i cs row0)))%R).

(** The index holds exactly [rows], numbered in the order in which they were added: every row is kept in the list of
    the centroid nearest to it. *)
Definition holds (s : @ivf V) (rows : list V) : Prop :=
  n_index s = Z.of_nat (length rows) /\
  exists home : nat -> nat,
    (forall i, (i < length rows)%nat -> (home i < Z.to_nat (n_list s))%nat /\
       nearest_first (centroids s) (nth i rows row0) (home i)) /\
    forall j, (j < Z.to_nat (n_list s))%nat ->
      let mine := filter (fun i => Nat.eqb (home i) j) (seq 0 (length rows)) in
      nth j (global_indices s) [] = map Z.of_nat mine /\
      nth j (indexed_vectors s) [] = map (fun i => nth i rows row0) mine /\
      nth j (list_sizes s) O = length mine.

(** distances that can be told from the filling of the heaps *)
Definition usable (d : T) : Prop := num d /\ lt N d (highest N) = true /\ lt N inf d = false.

(** [res] are the [k] nearest of [all] in order of their distances, filled up with the index -1 if there are fewer *)
Definition answers (k : Z) (all res : list (Z * T)) : Prop :=
  exists found, k_smallest key (Z.to_nat k) all found /\ ascending key found /\
    res = found ++ repeat (-1, inf) (Z.to_nat k - length found).

(** every row of the data with its distance to the query *)
Definition distances (q : V) (rows : list V) : list (Z * T) :=
  map (fun i => (Z.of_nat i, D q (nth i rows row0))) (seq 0 (length rows)).

(** the contents of the lists [p] *)
Definition contents_of (s : @ivf V) (p : list Z) (q : V) : list (Z * T) :=
  flat_map (fun j => if existsb (Z.eqb (Z.of_nat j)) p
                     then combine (nth j (global_indices s) []) (map (D q) (nth j (indexed_vectors s) [])) else [])
    (seq 0 (Z.to_nat (n_list s))).

(** the lists have the sizes noted *)
Definition sizes_fit (s : @ivf V) : Prop :=
  length (global_indices s) = Z.to_nat (n_list s) /\ length (centroids s) = Z.to_nat (n_list s) /\
  forall j, (j < Z.to_nat (n_list s))%nat ->
    nth j (list_sizes s) O = length (nth j (global_indices s) []) /\
    nth j (list_sizes s) O = length (nth j (indexed_vectors s) []).

(** k-means returns as many centroids as asked for *)
Definition kmeans_contract (kmeans : Z -> Z -> list V) : Prop := forall n nl, length (kmeans n nl) = Z.to_nat nl.
End Spec.

(** calls that leave the trained index alone: options other than the locked ones, additions and searches *)
Definition keeps_training {V} (nl m : Z) (c : @call V) : Prop :=
  match c with
  | Set_options o => o_n_list o = nl /\ o_metric o = m
  | Add _ | Search _ _ => True
  | Set_data _ | Train => False
  end.
Definition added {V} (l : list (@call V)) : list V := flat_map (fun c => match c with Add rows => rows | _ => [] end) l.

(** what the option "train fraction" promises: that share of the [n] rows, at least one row for every list *)
Definition share (n : Z) (f : Q) (nl : Z) : Z := Z.min n (Z.max (Qfloor (inject_Z n * f)) nl).

(** integers on a line *)
Definition line (a b : Z) : Z := (a - b) * (a - b).
Definition ends (n nl : Z) : list Z := map (fun j => 10 * j) (zrange nl).
