(** k-means: source/core/clustering/kmeans/kmeans.cpp, kmeans_lloyd.hpp, kmeans_elkan.hpp, kmeans_macqueen.hpp,
    kmeans_kernels.cpp, with the Euclidean distance (option "distance"), without mixed precision and without the
    algorithm of Hartigan and Wong.

    A sample and a centre are the lists of their features; the storage orders are left out (see UtilModel for the
    transpositions).  Clusters are counted from 0.  [None] is an access outside an array. *)
From Coq Require Import ZArith List Bool.
From Verif Require Import Base Par F64 UtilModel NnModel.
Import ListNotations.
Local Open Scope Z_scope.

Section Km.
Context {T : Type} (N : arith T).
Let row := list T.

(** ** The label of one sample *)
Section Kernel.
Variable ltb : T -> T -> bool.
(** lloyd_iteration_kernel_scalar, kmeans_kernels.cpp lines 209-234, for one sample.  [vals]: the sums
    [work[index] + centre_norms[j]]. *)
Fixpoint scan_min (vals : list T) (j label : nat) (smallest : T) : nat :=
  match vals with
  | [] => label
  | x :: vals => if ltb x smallest then scan_min vals (S j) j x else scan_min vals (S j) label smallest
  end.
Definition kernel_scalar (vals : list T) : option nat :=
  match vals with [] => None | x :: vals => Some (scan_min vals 1 0 x) end.

(** lloyd_iteration_kernel<double, avx>, <double, avx2>, <double, avx512> and the versions for the other types, lines
    251-925: [w] lanes.  A lane: the smallest value so far and its label.  _mm_min_pd: the second operand unless the first
    one is smaller. *)
Definition min_pd (a b : T) : T := if ltb a b then a else b.
Definition lane_step (j : nat) (lane : T * nat) (tmp : T) (l : nat) : T * nat :=
  (min_pd (fst lane) tmp, if ltb tmp (fst lane) then (j + l)%nat else snd lane).
(** a vector is loaded from [vals] *)
Definition load (vals : list T) (j w : nat) : option (list T) :=
  if Nat.leb (j + w) (length vals) then Some (firstn w (skipn j vals)) else None.
Definition vector_step (j : nat) (lanes : list (T * nat)) (tmp : list T) : list (T * nat) :=
  map (fun lt => lane_step j (fst (fst lt)) (snd (fst lt)) (snd lt)) (combine (combine lanes tmp) (seq 0 (length lanes))).
(** [for (da_int j = w; j < n_clusters; j += w)] *)
Fixpoint vector_loop (fuel w n_clusters : nat) (vals : list T) (j : nat) (lanes : list (T * nat)) : option (list (T * nat)) :=
  match fuel with
  | O => Some lanes
  | S fuel =>
      if Nat.ltb j n_clusters then
        bind (load vals j w) (fun tmp => vector_loop fuel w n_clusters vals (j + w)%nat (vector_step j lanes tmp))
      else Some lanes
  end.
(** the lanes one after the other, for instance lines 417-427 *)
Fixpoint reduce_lanes (lanes : list (T * nat)) (label : nat) (smallest : T) : nat :=
  match lanes with
  | [] => label
  | (d, l) :: lanes => if ltb d smallest then reduce_lanes lanes l d else reduce_lanes lanes label smallest
  end.
(** [vals]: the sums for all [n_clusters + padding] places of the row *)
Definition kernel_vector (w n_clusters : nat) (vals : list T) : option nat :=
  bind (load vals 0 w) (fun first =>
  bind (vector_loop n_clusters w n_clusters vals w (combine first (seq 0 w))) (fun lanes =>
  match lanes with [] => None | (d, l) :: lanes => Some (reduce_lanes lanes l d) end)).

(** What the kernels with [w] lanes compute (kernel_scalar is [w = 1]): the first smallest value if the places are looked
    at lane by lane. *)
Definition before (w i j : nat) : bool :=
  Nat.ltb (Nat.modulo i w) (Nat.modulo j w) || (Nat.eqb (Nat.modulo i w) (Nat.modulo j w) && Nat.ltb i j).
Definition better (w : nat) (vals : list T) (i j : nat) : bool :=
  let x := nth i vals (zero N) in
  let y := nth j vals (zero N) in
  ltb x y || (negb (ltb y x) && before w i j).
Definition pick (w : nat) (vals : list T) : nat :=
  fold_left (fun best j => if better w vals j best then j else best) (seq 1 (length vals - 1)) O.
End Kernel.
(** get_padding, da_kernel_utils.hpp lines 415-439: as many places as lanes; none for the scalar kernel.  [infinity] is
    stored in the places of workc1 behind the norms (kmeans.cpp lines 614-616, 945-946); [rest]: what the places of the
    row of workcs1 hold. *)
Definition padded (inf : T) (vals rest : list T) : list T := vals ++ map (fun x => add N x inf) rest.

(** ** Lloyd's algorithm *)
(** compute_squared_row_norms, da_utils.cpp lines 775-796 *)
Definition square_norm (c : row) : T := fold_left (fun s x => add N s (mul N x x)) c (zero N).
(** cblas_gemm (external): an entry of the product, times -2 *)
Variable prod : row -> row -> T.
(** kmeans_lloyd.hpp lines 126-136, 185-198 (and predict, kmeans.cpp lines 970-987) *)
Definition values (C : list row) (x : row) : list T := map (fun c => add N (prod x c) (square_norm c)) C.
(** the kernel that has been chosen *)
Variable kernel : list T -> nat.
Definition label (C : list row) (x : row) : nat := kernel (values C x).
Definition labels (C : list row) (X : list row) : list nat := map (label C) X.

(** The blocks of samples, kmeans.cpp line 1003, kmeans_lloyd.hpp lines 175-184, 234-242 *)
Definition block {A} (X : list A) (block_size b : nat) : list A := firstn block_size (skipn (b * block_size) X).

(** lloyd_iteration_update_centres, lines 273-361: the samples of one block are added to the sums of their clusters.
    [sums]: one row per cluster. *)
Definition add_row (s x : row) : row := zip_with (add N) s x.
Definition add_sample (sums : list row) (lx : nat * row) : list row :=
  put sums (fst lx) (add_row (nth (fst lx) sums []) (snd lx)).
(** lines 310-317, 350-360 *)
Definition update_plain (sums : list row) (block : list (nat * row)) : list row := fold_left add_sample block sums.
(** lines 318-349: four arrays take the samples in turn (a rest goes to the first) *)
Fixpoint deal (fuel : nat) (block : list (nat * row)) (w4 : list row * list row * list row * list row)
  : list row * list row * list row * list row :=
  match fuel with
  | O => w4
  | S fuel =>
      match w4, block with
      | (w1, w2, w3, w4), a :: b :: c :: d :: block =>
          deal fuel block (add_sample w1 a, add_sample w2 b, add_sample w3 c, add_sample w4 d)
      | (w1, w2, w3, w4), rest => (fold_left add_sample rest w1, w2, w3, w4)
      end
  end.
Definition zeros (k nf : nat) : list row := repeat (repeat (zero N) nf) k.
Definition update_four (k nf : nat) (sums : list row) (block : list (nat * row)) : list row :=
  match deal (S (length block)) block (zeros k nf, zeros k nf, zeros k nf, zeros k nf) with
  | (w1, w2, w3, w4) =>
      map (fun sw => add_row (fst sw) (snd sw))
        (combine sums (map (fun ww => add_row (fst ww) (snd ww))
           (combine (map (fun ww => add_row (fst ww) (snd ww)) (combine (map (fun ww => add_row (fst ww) (snd ww))
              (combine w1 w2)) w3)) w4)))
  end.
Inductive style : Type := Plain | Four.
Definition update (st : style) (k nf : nat) : list row -> list (nat * row) -> list row :=
  match st with Plain => update_plain | Four => update_four k nf end.
Definition add_count (counts : list Z) (l : nat) : list Z := put counts l (nth l counts 0 + 1).

(** lloyd_iteration, lines 104-271.  A team of threads (lines 152-231): for every thread the blocks it is given, in its
    order (line 174: schedule(dynamic)), the threads in the order in which they pass the lock (lines 220-227).  One thread:
    lines 232-264. *)
Inductive team : Type := OneThread | Threads (blocks : list (list nat)).
Definition n_blocks (n bs : nat) : nat := Nat.div (n + bs - 1) bs.
Definition thread_sums (st : style) (k nf bs : nat) (lx : list (nat * row)) (blocks : list nat) : list row :=
  fold_left (fun s b => update st k nf s (block lx bs b)) blocks (zeros k nf).
Definition thread_counts (k bs : nat) (ls : list nat) (blocks : list nat) : list Z :=
  fold_left (fun c b => fold_left add_count (block ls bs b) c) blocks (repeat 0 k).
Definition total_sums (st : style) (k nf bs : nat) (lx : list (nat * row)) (t : team) : list row :=
  match t with
  | OneThread => thread_sums st k nf bs lx (seq 0 (n_blocks (length lx) bs))
  | Threads ts =>
      fold_left (fun s blocks => map (fun ab => add_row (fst ab) (snd ab)) (combine s (thread_sums st k nf bs lx blocks)))
        ts (zeros k nf)
  end.
(** lines 211-219 (in the same order; the order does not matter) *)
Definition total_counts (k bs : nat) (ls : list nat) (t : team) : list Z :=
  match t with
  | OneThread => thread_counts k bs ls (seq 0 (n_blocks (length ls) bs))
  | Threads ts =>
      fold_left (fun s blocks => map (fun ab => fst ab + snd ab) (combine s (thread_counts k bs ls blocks))) ts (repeat 0 k)
  end.
(** scale_current_cluster_centres, lines 363-390 *)
Definition scale (sums : list row) (counts : list Z) : list row :=
  map (fun sc => map (fun s => div N s (of_Z N (if snd sc =? 0 then 1 else snd sc))) (fst sc)) (combine sums counts).
Definition new_centres (st : style) (bs : nat) (t : team) (k nf : nat) (ls : list nat) (X : list row)
  : list row := scale (total_sums st k nf bs (combine ls X) t) (total_counts k bs ls t).

(** ** The loop *)
(** compute_centre_shift, kmeans.cpp lines 1333-1355: [normc] *)
Definition frobenius (C : list row) : T := sqrt N (fold_left (fun s x => add N s (mul N x x)) (concat C) (zero N)).
Definition shift (C C' : list row) : list row := map (fun ab => zip_with (sub N) (fst ab) (snd ab)) (combine C C').
Fixpoint same_labels (a b : list nat) : bool :=
  match a, b with
  | [], [] => true
  | x :: a, y :: b => Nat.eqb x y && same_labels a b
  | _, _ => false
  end.
(** convergence_test, lines 1357-1397: 2 if no label has changed, 1 by the tolerance.  [lange]: the Frobenius norm of
    LAPACK (external). *)
Variable lange : list row -> T.
Definition convergence_test (iter : nat) (ls prev : list nat) (tol : T) (C C' : list row) : nat :=
  if Nat.ltb 1 iter && same_labels ls prev then 2%nat
  else if lt N (lange (shift C C')) (mul N tol (frobenius C)) then 1%nat else 0%nat.

(** handle_empty_clusters, lines 1126-1331.  [isfin]: isfinite *)
Variable isfin : T -> bool.
(** lines 1132-1146 *)
Definition count_labels (k : nat) (ls : list nat) : list Z := fold_left add_count ls (repeat 0 k).
Definition any_empty (k : nat) (ls : list nat) : bool := existsb (fun n => n =? 0) (count_labels k ls).
(** lines 1189-1198: the squared distance to the own centre *)
Definition own_distance (C : list row) (lx : nat * row) : T :=
  fold_left (fun s ab => let d := sub N (fst ab) (snd ab) in add N s (mul N d d)) (combine (snd lx) (nth (fst lx) C []))
    (zero N).
(** lines 1206-1215 *)
Fixpoint find_donor (ls : list nat) (ds : list T) (counts : list Z) (i : nat) (best : option nat) (best_dist : T) : option nat :=
  match ls, ds with
  | l :: ls, d :: ds =>
      if (1 <? nth l counts 0) && isfin d && lt N best_dist d then find_donor ls ds counts (S i) (Some i) d
      else find_donor ls ds counts (S i) best best_dist
  | _, _ => best
  end.
(** lines 1228-1235: the donor's centre without the sample *)
Definition without (c x : row) (n_old : Z) : row :=
  map (fun ca => div N (sub N (mul N (fst ca) (of_Z N n_old)) (snd ca)) (of_Z N (n_old - 1))) (combine c x).
Record split_state : Type := SplitState { sp_C : list row; sp_ls : list nat; sp_counts : list Z; sp_ds : list T }.
(** one empty cluster [c], lines 1201-1310; [None]: no donor *)
Definition split_one (n_empty : nat) (X : list row) (s : split_state) (c : nat) : option split_state :=
  match find_donor (sp_ls s) (sp_ds s) (sp_counts s) 0 None (of_Z N (-1)) with
  | None => None
  | Some i =>
      let old := nth i (sp_ls s) O in
      let x := nth i X [] in
      let n_old := nth old (sp_counts s) 0 in
      let C := put (sp_C s) old (without (nth old (sp_C s) []) x n_old) in
      let C := put C c x in
      let counts := put (put (sp_counts s) old (n_old - 1)) c 1 in
      let ls := put (sp_ls s) i c in
      let ds := put (sp_ds s) i (zero N) in
      let ds := if Nat.ltb 1 n_empty then
                  map (fun dlx => if Nat.eqb (fst (snd dlx)) old then own_distance C (snd dlx) else fst dlx)
                    (combine ds (combine ls X))
                else ds in
      Some (SplitState C ls counts ds)
  end.
Fixpoint split_loop (n_empty : nat) (X : list row) (s : split_state) (cs : list nat) : split_state :=
  match cs with
  | [] => s
  | c :: cs =>
      if nth c (sp_counts s) 0 =? 0 then
        match split_one n_empty X s c with
        | None => s
        | Some s => split_loop n_empty X s cs
        end
      else split_loop n_empty X s cs
  end.
Definition split_empty (k : nat) (X : list row) (C : list row) (ls : list nat) : list row * list nat :=
  let counts := count_labels k ls in
  let n_empty := length (filter (fun n => n =? 0) counts) in
  let s := split_loop n_empty X (SplitState C ls counts (map (own_distance C) (combine ls X))) (seq 0 k) in
  (sp_C s, sp_ls s).

(** option "empty clusters" *)
Inductive empties : Type := Ignore | Error | Split.
(** The end of a run: a run with an empty cluster is given up; otherwise the centres, the labels, the number of iterations
    and the kind of convergence. *)
Inductive run : Type :=
| EmptyCluster
| Finished (C : list row) (ls : list nat) (iterations converged : nat).
(** perform_kmeans, lines 995-1058, for Lloyd's algorithm.  [C], [prev]: centres and labels before the iteration.
    [schedule]: the threads' blocks in each iteration. *)
Variables (st : style) (bs : nat) (schedule : nat -> team) (k nf : nat) (X : list row) (mode : empties) (tol : T).
Fixpoint lloyd_loop (fuel iter : nat) (C : list row) (prev : list nat) : run :=
  match fuel with
  | O => Finished C (labels C X) iter 0
  | S fuel =>
      let ls := labels C X in
      let C' := new_centres st bs (schedule iter) k nf ls X in
      let test :=
        match convergence_test iter ls prev tol C C' with
        | O => lloyd_loop fuel (S iter) C' ls
        | 1%nat => Finished C' (labels C' X) iter 1
        | c => Finished C' ls iter c
        end in
      match mode with
      | Ignore => test
      | Error => if any_empty k ls then EmptyCluster else test
      | Split =>
          if any_empty k ls then
            let (C'', ls'') := split_empty k X C' ls in lloyd_loop fuel (S iter) C'' ls''
          else test
      end
  end.
Definition lloyd (max_iter : nat) (C : list row) : run := lloyd_loop max_iter 0 C [].

(** compute_current_inertia, lines 1060-1124, rows of samples one after the other (with column-major data the terms are
    added in another order) *)
Definition inertia (C : list row) (ls : list nat) : T :=
  fold_left (fun s lx => fold_left (fun s ab => let d := sub N (fst ab) (snd ab) in add N s (mul N d d))
                           (combine (snd lx) (nth (fst lx) C [])) s)
    (combine ls X) (zero N).
End Km.
