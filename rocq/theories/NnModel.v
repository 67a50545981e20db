(** Nearest neighbours: source/core/nearest_neighbors/binary_tree.hpp, binary_tree.cpp, kd_tree.cpp,
    nearest_neighbors_utils.hpp, nearest_neighbors.cpp (lines 565-890) and the choice of the algorithm in
    source/core/clustering/dbscan/dbscan.cpp. *)
From Coq Require Import ZArith List Bool.
From Flocq Require Import BinarySingleNaN.
From Verif Require Import Base Par F64 UtilModel TreeSearchModel.
Import ListNotations.
Local Open Scope Z_scope.

(** The arithmetic of the template parameter [T].  [pow] and [sqrt]: std::pow and std::sqrt. *)
Record arith (T : Type) : Type := Arith {
  of_Z : Z -> T; add : T -> T -> T; sub : T -> T -> T; mul : T -> T -> T; div : T -> T -> T; opp : T -> T; abs : T -> T;
  sqrt : T -> T; pow : T -> T -> T;
  lt : T -> T -> bool; le : T -> T -> bool;
  highest : T; lowest : T }.      (* std::numeric_limits<T>::max() and lowest() *)
Arguments of_Z {_}. Arguments add {_}. Arguments sub {_}. Arguments mul {_}. Arguments div {_}. Arguments opp {_}.
Arguments abs {_}. Arguments sqrt {_}. Arguments pow {_}. Arguments lt {_}. Arguments le {_}.
Arguments highest {_}. Arguments lowest {_}.
Definition zero {T} (N : arith T) : T := of_Z N 0.

(** double; [pow] is left to the caller *)
Definition f64_highest : f64 := f64_mul (f64_of_Z (2 ^ 53 - 1)) (f64_of_Z (2 ^ 971)).
Definition f64_opp (x : f64) : f64 := Bopp x.
Definition f64_sqrt (x : f64) : f64 := @Bsqrt 53 1024 eq_refl eq_refl mode_NE x.
Definition arith64 (pw : f64 -> f64 -> f64) : arith f64 :=
  Arith f64 f64_of_Z f64_add f64_sub f64_mul f64_div f64_opp f64_abs f64_sqrt pw f64_lt f64_le
    f64_highest (f64_opp f64_highest).
(** integers, used as exact arithmetic in examples ([pow] for natural exponents; the square root is the integer part) *)
Definition arithZ : arith Z :=
  Arith Z (fun z => z) Z.add Z.sub Z.mul Z.div Z.opp Z.abs Z.sqrt Z.pow Z.ltb Z.leb (2 ^ 62) (- 2 ^ 62).

(** The metrics that reach the trees; aoclda_metrics.h lines 43-57 *)
Inductive metric : Type := Euclidean | EuclideanGemm | SqeuclideanGemm | Manhattan | Minkowski | Cosine.
Definition euclid (m : metric) : bool := match m with Euclidean | EuclideanGemm => true | _ => false end.

Section Nn.
Context {T : Type} (N : arith T).

(** ** Selection of the k smallest values *)

(** inline_iamax, nearest_neighbors_utils.hpp lines 104-115, on the candidates kept so far: the position of the first
    largest one.  With [lt] turned round it is inline_iamin, lines 117-128. *)
Section Select.
Variables (ltb leb : T -> T -> bool).
Fixpoint iamax_loop (l : list (Z * T)) (i idx : nat) (maxval : T) : nat * T :=
  match l with
  | [] => (idx, maxval)
  | (_, x) :: l => if ltb maxval x then iamax_loop l (S i) i x else iamax_loop l (S i) idx maxval
  end.
Definition iamax (l : list (Z * T)) : nat * T :=
  match l with [] => (O, zero N) | (_, x) :: l => iamax_loop l 1 0 x end.
Fixpoint put {A} (l : list A) (n : nat) (x : A) : list A :=
  match l, n with
  | [], _ => []
  | _ :: l, O => x :: l
  | y :: l, S n => y :: put l n x
  end.
(** the update of the candidates by one value, lines 208-213 and 219-224 (and nearest_neighbors.cpp lines 752-757) *)
Definition offer (c : list (Z * T)) (x : Z * T) : list (Z * T) :=
  let (mi, mv) := iamax c in if leb (snd x) mv then put c mi x else c.
(** the scalar loop, lines 218-225 *)
Definition offer_all (c l : list (Z * T)) : list (Z * T) := fold_left offer l c.
(** one vector of lanes, lines 201-216: the lanes not above the old maximum [mv] are offered in order *)
Definition offer_vector (mv : T) (c lanes : list (Z * T)) : list (Z * T) :=
  offer_all c (filter (fun x => leb (snd x) mv) lanes).
(** smaller_values_and_indices_vectorized_kernel, lines 193-226: vectors of [v] lanes, then the rest one by one.  [l]:
    the values with the indices stored for them.  With the orders turned round: lines 249-282. *)
Fixpoint offer_vectors (fuel v : nat) (c l : list (Z * T)) : list (Z * T) :=
  match fuel with
  | O => offer_all c l
  | S fuel =>
      if Nat.leb v (length l) then offer_vectors fuel v (offer_vector (snd (iamax c)) c (firstn v l)) (skipn v l)
      else offer_all c l
  end.
Definition select (v : nat) (c l : list (Z * T)) : list (Z * T) := offer_vectors (length l) v c l.

(** nearest_neighbors.cpp lines 673-703: the distances of one block of training samples to one query.  [k]: the number
    of neighbours, [c]: the candidates of this thread for this query. *)
Definition scan_block (v k : nat) (c l : list (Z * T)) : list (Z * T) :=
  let room := (k - length c)%nat in
  let c := c ++ firstn room l in
  match skipn room l with [] => c | rest => select v c rest end.
(** lines 740-775: the candidates of another thread are merged *)
Definition merge (k : nat) (c o : list (Z * T)) : list (Z * T) :=
  let room := (k - length c)%nat in
  let c := c ++ firstn room o in
  match skipn room o with [] => c | rest => offer_all c rest end.
(** the candidates of one thread after all its blocks *)
Definition thread_scan (v k : nat) (blocks : list (list (Z * T))) : list (Z * T) := fold_left (scan_block v k) blocks [].
(** lines 648-775 for one query; the first thread takes the others in *)
Definition brute_candidates (v k : nat) (threads : list (list (list (Z * T)))) : list (Z * T) :=
  match map (thread_scan v k) threads with
  | [] => []
  | c :: os => fold_left (merge k) os c
  end.

(** std::stable_sort with the comparison of the distances, nearest_neighbors_utils.hpp lines 81-89: the only stable
    arrangement; [sorted_n_dist_n_ind] then copies indices and distances in this order. *)
Fixpoint insert_sorted (x : Z * T) (l : list (Z * T)) : list (Z * T) :=
  match l with
  | [] => [x]
  | y :: l' => if ltb (snd y) (snd x) then y :: insert_sorted x l' else x :: l
  end.
Definition stable_sort (l : list (Z * T)) : list (Z * T) := fold_right insert_sorted [] l.
End Select.

(** kneighbors_compute_brute_force, nearest_neighbors.cpp lines 565-815, for one query.  [D i]: the distance to
    training sample [i] (an entry of the block of distances).  [max_block]: lines 573-581.  [threads]: for every thread
    the blocks it was given, in its order (lines 634-636: schedule(guided) over pairs of blocks).  The matrix of the other
    queries is handled alike and kept apart. *)
Definition block_entries (D : Z -> T) (n_blocks block_rem block_size b : Z) : list (Z * T) :=
  let local := if (b =? n_blocks - 1) && (0 <? block_rem) then block_rem else block_size in
  map (fun ii => (ii + b * block_size, D (ii + b * block_size))) (zrange local).
(** lines 593-596 *)
Definition brute_entries (D : Z -> T) (n_samples max_block : Z) (threads : list (list Z)) : list (list (list (Z * T))) :=
  let block_size := Z.min max_block n_samples in
  match blocking_scheme n_samples block_size with
  | Some (n_blocks, block_rem) => map (map (block_entries D n_blocks block_rem block_size)) threads
  | None => []
  end.
Definition brute_force (v k : nat) (D : Z -> T) (n_samples max_block : Z) (threads : list (list Z)) : list (Z * T) :=
  stable_sort (lt N) (brute_candidates (lt N) (le N) v k (brute_entries D n_samples max_block threads)).
(** metric "inner product": the largest values *)
Definition brute_force_largest (v k : nat) (D : Z -> T) (n_samples max_block : Z) (threads : list (list Z))
  : list (Z * T) :=
  let gt x y := lt N y x in
  let ge x y := le N y x in
  stable_sort gt (brute_candidates gt ge v k (brute_entries D n_samples max_block threads)).

(** ** MaxHeap, binary_tree.hpp lines 112-143, binary_tree.cpp lines 123-183 *)
Record heap : Type := Heap { cells : Z -> Z * T; size : Z; capacity : Z }.
Definition heap_new (k : Z) (cells : Z -> Z * T) : heap := Heap cells 0 k.
(** lines 129-132 *)
Definition max_dist (h : heap) : T := if size h <? capacity h then highest N else snd (cells h 0).
Definition swap (c : Z -> Z * T) (i j : Z) : Z -> Z * T := store_at (store_at c i (c j)) j (c i).
(** lines 153-165 *)
Fixpoint heapify_up (fuel : nat) (c : Z -> Z * T) (index : Z) : Z -> Z * T :=
  match fuel with
  | O => c
  | S fuel =>
      if 0 <? index then
        let parent := (index - 1) / 2 in
        if lt N (snd (c parent)) (snd (c index)) then heapify_up fuel (swap c index parent) parent else c
      else c
  end.
(** lines 167-189 *)
Fixpoint heapify_down (fuel : nat) (size : Z) (c : Z -> Z * T) (index : Z) : Z -> Z * T :=
  match fuel with
  | O => c
  | S fuel =>
      let left := 2 * index + 1 in
      let right := 2 * index + 2 in
      let largest := if (left <? size) && lt N (snd (c index)) (snd (c left)) then left else index in
      let largest := if (right <? size) && lt N (snd (c largest)) (snd (c right)) then right else largest in
      if largest =? index then c else heapify_down fuel size (swap c index largest) largest
  end.
(** lines 134-146 *)
Definition insert (h : heap) (x : Z * T) : heap :=
  if size h <? capacity h then
    Heap (heapify_up (Z.to_nat (size h) + 1) (store_at (cells h) (size h) x) (size h)) (size h + 1) (capacity h)
  else if lt N (snd x) (snd (cells h 0)) then
    Heap (heapify_down (Z.to_nat (size h) + 1) (size h) (store_at (cells h) 0 x) 0) (size h) (capacity h)
  else h.
Definition contents (h : heap) : list (Z * T) := map (cells h) (zrange (size h)).

(** ** Distances.  A sample is the list of its features; [row i]: training sample [i] (the matrix is read through this
    function, without its leading dimension). *)
Variable row : Z -> list T.
Variable m : metric.
Variables p p_inv : T.
Definition dot (x y : list T) : T := fold_left (fun s ab => add N s (mul N (fst ab) (snd ab))) (combine x y) (zero N).
Definition norm (x : list T) : T := dot x x.
(** the packed kernels add up over the features in order (metrics/kernels_*.cpp; a fused multiply-add and the slices of
    long rows are not modelled): the sum of [f (x_j - y_j)] *)
Definition sum_diff (f : T -> T) (x y : list T) : T :=
  fold_left (fun s ab => add N s (f (sub N (fst ab) (snd ab)))) (combine x y) (zero N).
(** metrics/cosine_distance.cpp lines 61-106; norms not above the machine precision are not handled *)
Definition cosine (x y : list T) : T :=
  sub N (of_Z N 1) (div N (dot x y) (mul N (sqrt N (norm x)) (sqrt N (norm y)))).
(** compute_distance, binary_tree.cpp lines 191-212.  Euclidean distances are squared.  Minkowski with the power 1 is
    the Manhattan kernel (metrics/pairwise_distances.cpp lines 57-67). *)
Definition distance (x y : list T) : T :=
  match m with
  | EuclideanGemm => sub N (add N (norm x) (norm y)) (mul N (of_Z N 2) (dot x y))
  | SqeuclideanGemm => sub N (add N (norm x) (norm y)) (mul N (of_Z N 2) (dot x y))
  | Euclidean => sum_diff (fun d => mul N d d) x y
  | Manhattan => sum_diff (abs N) x y
  | Minkowski => pow N (sum_diff (fun d => pow N (abs N d) p) x y) p_inv
  | Cosine => cosine x y
  end.

(** ** The k-d tree *)
Inductive tree : Type :=
| Null                                   (* a null pointer *)
| Leaf (ix : list Z) (lo hi : list T)
| Node (lo hi : list T) (dim : nat) (point : Z) (left right : tree).
(** the part of [indices] a node points to: children rearrange their own parts only *)
Fixpoint node_indices (t : tree) : list Z :=
  match t with
  | Null => []
  | Leaf ix _ _ => ix
  | Node _ _ _ point l r => node_indices l ++ point :: node_indices r
  end.

(** std::min and std::max *)
Definition std_min (a b : T) : T := if lt N b a then b else a.
Definition std_max (a b : T) : T := if lt N a b then b else a.
Definition zip_with (f : T -> T -> T) (a b : list T) : list T := map (fun ab => f (fst ab) (snd ab)) (combine a b).
(** the bounds of the samples [ix], kd_tree.cpp lines 248-260 (the loops over features and samples are exchanged) *)
Definition min_bounds (nf : nat) (ix : list Z) : list T :=
  fold_left (fun b i => zip_with std_min b (row i)) ix (repeat (highest N) nf).
Definition max_bounds (nf : nat) (ix : list Z) : list T :=
  fold_left (fun b i => zip_with std_max b (row i)) ix (repeat (lowest N) nf).
(** the bounds of the root, lines 130-185: every thread has bounds of its own over the samples of its blocks
    ([parts], in the order in which the threads pass the critical sections) *)
Definition root_min (nf : nat) (parts : list (list Z)) : list T :=
  fold_left (fun b ix => zip_with std_min b (min_bounds nf ix)) parts (repeat (highest N) nf).
Definition root_max (nf : nat) (parts : list (list Z)) : list T :=
  fold_left (fun b ix => zip_with std_max b (max_bounds nf ix)) parts (repeat (lowest N) nf).

Definition coord (dim : nat) (i : Z) : T := nth dim (row i) (zero N).
(** single_pass_variance, lines 211-224 *)
Fixpoint variance_loop (l : list Z) (i : Z) (dim : nat) (mean var : T) : T :=
  match l with
  | [] => div N var (of_Z N i)
  | x :: l =>
      let value := coord dim x in
      let delta := sub N value mean in
      let mean := add N mean (div N delta (of_Z N (i + 1))) in
      variance_loop l (i + 1) dim mean (add N var (mul N delta (sub N value mean)))
  end.
Definition single_pass_variance (ix : list Z) (dim : nat) : T := variance_loop ix 0 dim (zero N) (zero N).
(** lines 276-286 *)
Fixpoint best_dim_loop (ix : list Z) (dims : list nat) (best : nat) (best_var : T) : nat :=
  match dims with
  | [] => best
  | d :: dims =>
      let v := single_pass_variance ix d in
      if lt N best_var v then best_dim_loop ix dims d v else best_dim_loop ix dims best best_var
  end.
Definition best_dim (nf : nat) (ix : list Z) : nat := best_dim_loop ix (seq 0 nf) 0 (zero N).

(** build_tree, lines 229-333.  [nth_element less mid l]: the arrangement std::nth_element leaves.  [root]: the bounds and
    the dimension of the root.  The tasks of lines 316-328 work on separate parts of [indices]. *)
Variable nth_element : (Z -> Z -> bool) -> nat -> list Z -> list Z.
Variables (nf : nat) (leaf_size : Z).
Fixpoint build (fuel : nat) (root : option (list T * list T * nat)) (ix : list Z) : tree :=
  match fuel with
  | O => Null
  | S fuel =>
      match ix with
      | [] => Null
      | _ =>
          let lo := match root with Some (lo, _, _) => lo | None => min_bounds nf ix end in
          let hi := match root with Some (_, hi, _) => hi | None => max_bounds nf ix end in
          let n := Z.of_nat (length ix) in
          if (n <? 2 * leaf_size) || (n =? 2) then Leaf ix lo hi
          else
            let dim := match root with Some (_, _, d) => d | None => best_dim nf ix end in
            let mid := Z.to_nat ((n - 1) / 2) in
            let ix := nth_element (fun x y => lt N (coord dim x) (coord dim y)) mid ix in
            Node lo hi dim (nth mid ix 0) (build fuel None (firstn mid ix)) (build fuel None (skipn (mid + 1) ix))
      end
  end.
(** the constructor, lines 118-200; [root_dim]: line 190 *)
Definition build_kd (n_samples : Z) (parts : list (list Z)) (root_dim : nat) : tree :=
  build (Z.to_nat n_samples + 1) (Some (root_min nf parts, root_max nf parts, root_dim)) (zrange n_samples).

(** check_bounding_box, lines 546-622 *)
Inductive region : Type := Outside | Near | Inside.
Fixpoint box_loop (eps : T) (x lo hi : list T) (min_d max_d : T) : option (T * T) :=
  match x, lo, hi with
  | xi :: x, l :: lo, h :: hi =>
      let tmp := if lt N xi l then (sub N l xi, sub N h xi)
                 else if lt N h xi then (sub N xi h, sub N xi l)
                 else (zero N, std_max (sub N h xi) (sub N xi l)) in
      if euclid m then
        let tmin := mul N (fst tmp) (fst tmp) in
        let tmax := mul N (snd tmp) (snd tmp) in
        if lt N eps tmin then None else box_loop eps x lo hi (add N min_d tmin) (add N max_d tmax)
      else if lt N eps (fst tmp) then None
      else match m with
           | Manhattan => box_loop eps x lo hi (add N min_d (fst tmp)) (add N max_d (snd tmp))
           | _ => box_loop eps x lo hi (add N min_d (pow N (fst tmp) p)) (add N max_d (pow N (snd tmp) p))
           end
  | _, _, _ => Some (min_d, max_d)
  end.
Definition root_of (d : T) : T := match m with Minkowski | SqeuclideanGemm | Cosine => pow N d p_inv | _ => d end.
Definition check_box (eps : T) (x lo hi : list T) : region :=
  match box_loop eps x lo hi (zero N) (zero N) with
  | None => Outside
  | Some (min_d, max_d) =>
      if le N (root_of max_d) eps then Inside else if le N (root_of min_d) eps then Near else Outside
  end.

Definition bind {A B} (a : option A) (f : A -> option B) : option B := match a with Some a => f a | None => None end.

(** radius_neighbors_recursive, lines 335-432: the indices with their distances in the order in which they are stored.
    [self]: the query itself if it is a training sample.  [None]: a null pointer is followed. *)
Section Query.
Variables (x : list T) (self : option Z).
Definition is_self (i : Z) : bool := match self with Some s => i =? s | None => false end.
Definition entry (i : Z) : Z * T := (i, distance x (row i)).
Fixpoint radius_search (eps eps_int : T) (t : tree) : option (list (Z * T)) :=
  match t with
  | Null => None
  | Leaf ix lo hi =>
      match check_box eps_int x lo hi with
      | Outside => Some []
      | Inside => Some (map entry (filter (fun i => negb (is_self i)) ix))
      | Near => Some (map entry (filter (fun i => negb (is_self i) && le N (distance x (row i)) eps_int) ix))
      end
  | Node lo hi dim point l r =>
      match check_box eps_int x lo hi with
      | Outside => Some []
      | Inside => Some (map entry (filter (fun i => negb (is_self i)) (node_indices t)))
      | Near =>
          let here := if negb (is_self point) && le N (distance x (row point)) eps_int then [entry point] else [] in
          let diff := sub N (nth dim x (zero N)) (coord dim point) in
          bind (if le N diff eps then radius_search eps eps_int l else Some []) (fun a =>
          bind (if le N (opp N eps) diff then radius_search eps eps_int r else Some []) (fun b =>
          Some (here ++ a ++ b)))
      end
  end.
(** radius_neighbors, binary_tree.cpp lines 361-371 *)
Definition eps_internal (eps : T) : T := if euclid m then mul N eps eps else eps.
Definition kd_radius (eps : T) (t : tree) : option (list (Z * T)) := radius_search eps (eps_internal eps) t.

(** k_neighbors_recursive, kd_tree.cpp lines 434-538 *)
Definition insert_sample (h : heap) (i : Z) : heap := if is_self i then h else insert h (entry i).
Fixpoint k_search (h : heap) (t : tree) : option heap :=
  match t with
  | Null => None
  | Leaf ix lo hi =>
      match (if size h <? capacity h then Near else check_box (max_dist h) x lo hi) with
      | Outside => Some h
      | _ => Some (fold_left insert_sample ix h)
      end
  | Node lo hi dim point l r =>
      match (if size h <? capacity h then Near else check_box (max_dist h) x lo hi) with
      | Outside => Some h
      | _ =>
          let h := insert_sample h point in
          let diff := sub N (nth dim x (zero N)) (coord dim point) in
          let diff_tmp := if euclid m then mul N diff (abs N diff) else diff in
          if lt N diff (zero N) then
            bind (k_search h l) (fun h =>
            if le N (opp N (max_dist h)) diff_tmp then k_search h r else Some h)
          else
            bind (k_search h r) (fun h =>
            if le N diff_tmp (max_dist h) then k_search h l else Some h)
      end
  end.
End Query.

(** kneighbors_compute_kd_tree, nearest_neighbors.cpp lines 820-853, for one query: the arrays [k_ind] and [k_dist] are
    filled with zeros, the search writes its heap into them and all [k] entries are sorted and returned. *)
Definition kd_k_neighbors (x : list T) (k : Z) (t : tree) : option (list (Z * T)) :=
  bind (k_search x None (heap_new k (fun _ => (0, zero N))) t) (fun h =>
  Some (stable_sort (lt N) (map (cells h) (zrange k)))).
(** sorted_n_dist_n_ind, nearest_neighbors_utils.hpp lines 94-102: with [squares] the square roots are returned *)
Definition returned (squares : bool) (l : list (Z * T)) : list (Z * T) :=
  if squares then map (fun e => (fst e, sqrt N (snd e))) l else l.
End Nn.

(** ** The algorithm of DBSCAN, dbscan.cpp lines 240-280 *)
Inductive algorithm : Type := Brute | KdTree | BallTree | Automatic.
(** lines 241-250: [true] if the options are accepted; [p_small]: p < 1 *)
Definition dbscan_accepts (a : algorithm) (m : metric) (p_small : bool) : bool :=
  match a with
  | KdTree | BallTree =>
      match m with Cosine | SqeuclideanGemm => false | Minkowski => negb p_small | _ => true end
  | _ => true
  end.
(** lines 252-262 *)
Definition dbscan_algorithm (a : algorithm) (m : metric) (p_small : bool) (n_features : Z) : algorithm :=
  match a with
  | Automatic =>
      if (n_features <=? 15) && negb (match m with Minkowski => p_small | _ => false end) then KdTree else Brute
  | a => a
  end.
