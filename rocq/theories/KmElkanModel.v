(** Elkan's algorithm for k-means: source/core/clustering/kmeans/kmeans_elkan.hpp, the kernels in kmeans_kernels.cpp and the
    loop in kmeans.cpp, with the Euclidean distance.  The data as in KmModel. *)
From Coq Require Import ZArith List Bool.
From Verif Require Import Base Par UtilModel NnModel KmModel.
Import ListNotations.
Local Open Scope Z_scope.

(** ** Blocks of samples *)
(** kmeans_elkan.hpp lines 293-308 (the same in lines 391-404 and, for predict, in kmeans.cpp): the blocks a thread is
    given one after the other; the result: first sample and number of samples of each call.  [block_size] is private to the
    thread and set for a short last block only. *)
Fixpoint thread_ranges (n bs n_blocks block_rem : Z) (block_size : Z) (blocks : list Z) : list (Z * Z) :=
  match blocks with
  | [] => []
  | i :: blocks =>
      if (i =? n_blocks - 1) && (0 <? block_rem)
      then (n - block_rem, block_rem) :: thread_ranges n bs n_blocks block_rem block_rem blocks
      else (i * bs, block_size) :: thread_ranges n bs n_blocks block_rem block_size blocks
  end.
(** da_utils::blocking_scheme, da_utils.cpp *)
Definition scheme (n bs : Z) : Z * Z := let r := n mod bs in (n / bs + (if r =? 0 then 0 else 1), r).
(** all calls of a team *)
Definition team_ranges (n bs : Z) (ts : list (list Z)) : list (Z * Z) :=
  let (nb, r) := scheme n bs in flat_map (thread_ranges n bs nb r bs) ts.
(** kmeans_lloyd.hpp lines 174-186: the same with [block_size] set in both cases *)
Fixpoint lloyd_ranges (n bs n_blocks block_rem : Z) (blocks : list Z) : list (Z * Z) :=
  match blocks with
  | [] => []
  | i :: blocks =>
      (if (i =? n_blocks - 1) && (0 <? block_rem) then (n - block_rem, block_rem) else (i * bs, bs))
      :: lloyd_ranges n bs n_blocks block_rem blocks
  end.
Definition lloyd_team_ranges (n bs : Z) (ts : list (list Z)) : list (Z * Z) :=
  let (nb, r) := scheme n bs in flat_map (lloyd_ranges n bs nb r) ts.

Section Elkan.
Context {T : Type} (N : arith T).
Let row := list T.

(** ** Distances *)
(** elkan_reduction_kernel_scalar, kmeans_kernels.cpp lines 45-56 *)
Definition reduce_scalar (x y : row) : T :=
  fold_left (fun s ab => let d := sub N (fst ab) (snd ab) in add N s (mul N d d)) (combine x y) (zero N).
(** elkan_reduction_kt, lines 66-99, with [w] lanes: [fma], [hsum]: fused multiply-add, sum of the lanes *)
Variables (fma : T -> T -> T -> T) (hsum : list T -> T).
Fixpoint reduce_vectors (fuel w : nat) (x y : row) (vsum : row) : row * row * row :=
  match fuel with
  | O => (vsum, x, y)
  | S fuel =>
      if Nat.leb w (length x) then
        let d := zip_with (sub N) (firstn w x) (firstn w y) in
        reduce_vectors fuel w (skipn w x) (skipn w y) (zip_with (fun d s => fma d d s) d vsum)
      else (vsum, x, y)
  end.
Definition reduce_kt (w : nat) (x y : row) : T :=
  match reduce_vectors (length x) w x y (repeat (zero N) w) with
  | (vsum, x, y) => fold_left (fun s ab => let d := sub N (fst ab) (snd ab) in add N s (mul N d d)) (combine x y) (hsum vsum)
  end.

(** the kernel that has been chosen *)
Variable reduce : row -> row -> T.
Definition dist (x c : row) : T := sqrt N (reduce x c).

(** compute_centre_half_distances, lines 517-566.  [gd]: euclidean_gemm_distance of the centres to themselves (see
    PairModel).  Next centres: [None] is infinity. *)
Variable gd : list row -> nat -> nat -> T.
Definition half (v : T) : T := mul N (div N (of_Z N 1) (of_Z N 2)) v.
Definition half_distances (k : nat) (C : list row) : list row :=
  map (fun i => map (fun j => if Nat.eqb i j then gd C i j else half (gd C (Nat.min i j) (Nat.max i j))) (seq 0 k)) (seq 0 k).
Definition half_of (hd : list row) (i j : nat) : T := nth j (nth i hd []) (zero N).
Definition next_centre (k : nat) (hd : list row) (i : nat) : option T :=
  fold_left (fun m j =>
      if Nat.eqb j i then m
      else let t := half_of hd i j in
           match m with None => if le N t t then Some t else None | Some v => if lt N t v then Some t else m end)
    (seq 0 k) None.
Definition next_centres (k : nat) (hd : list row) : list (option T) := map (next_centre k hd) (seq 0 k).

(** ** One sample *)
(** the label, the upper bound (works1) and the lower bounds (workcs1) *)
Record sample_state : Type := SampleState { e_label : nat; e_u : T; e_lb : row }.
(** init_elkan, lines 168-247, for the sample [x] (the sums in another order are not told apart from [dist]) *)
Definition init_step (C : list row) (hd : list row) (x : row) (s : sample_state) (j : nat) : sample_state :=
  if lt N (half_of hd (e_label s) j) (e_u s) then
    let d := dist x (nth j C []) in
    if lt N d (e_u s) then SampleState j d (e_lb s ++ [d]) else SampleState (e_label s) (e_u s) (e_lb s ++ [d])
  else SampleState (e_label s) (e_u s) (e_lb s ++ [zero N]).
Definition init_sample (k : nat) (C hd : list row) (x : row) : sample_state :=
  let d := dist x (nth 0 C []) in fold_left (init_step C hd x) (seq 1 (k - 1)) (SampleState 0 d [d]).

(** elkan_iteration_assign_block, lines 426-497; [bool]: tight_bounds *)
Definition assign_step (C hd : list row) (x : row) (st : sample_state * bool) (j : nat) : sample_state * bool :=
  let (s, tight) := st in
  let l_bound := nth j (e_lb s) (zero N) in
  let h := half_of hd (e_label s) j in
  if negb (Nat.eqb j (e_label s)) && lt N l_bound (e_u s) && lt N h (e_u s) then
    let s := if tight then s
             else let u := dist x (nth (e_label s) C []) in SampleState (e_label s) u (put (e_lb s) (e_label s) u) in
    ((if lt N l_bound (e_u s) || lt N h (e_u s) then
        let d := dist x (nth j C []) in
        if lt N d (e_u s) then SampleState j d (put (e_lb s) j d) else SampleState (e_label s) (e_u s) (put (e_lb s) j d)
      else s), true)
  else st.
Definition assign_sample (k : nat) (C hd : list row) (nd : list (option T)) (x : row) (s : sample_state) : sample_state :=
  match nth (e_label s) nd None with
  | None => s
  | Some h => if lt N h (e_u s) then fst (fold_left (assign_step C hd x) (seq 0 k) (s, false)) else s
  end.
(** elkan_iteration_kernel_scalar, kmeans_kernels.cpp lines 117-135 (elkan_iteration_kt gives the same without NaN) *)
Definition move_bounds (shifts : row) (s : sample_state) : sample_state :=
  SampleState (e_label s) (add N (e_u s) (nth (e_label s) shifts (zero N)))
    (map (fun ls => let d := sub N (fst ls) (snd ls) in if lt N d (zero N) then zero N else d) (combine (e_lb s) shifts)).
(** elkan_iteration, lines 375-386 *)
Definition centre_shifts (C C' : list row) : row :=
  map (fun r => sqrt N (fold_left (fun s x => add N s (mul N x x)) r (zero N))) (shift N C C').

(** ** The run *)
Variables (lange : list row -> T) (isfin : T -> bool).
Variables (bs : nat) (schedule : nat -> team) (k nf : nat) (X : list row) (mode : empties) (tol : T).
Record elkan_state : Type := ElkanState { es_C : list row; es_hd : list row; es_nd : list (option T); es_ss : list sample_state }.
Definition with_halves (C : list row) (ss : list sample_state) : elkan_state :=
  let hd := half_distances k C in ElkanState C hd (next_centres k hd) ss.
(** the labels with the centres of the state; the new centres and the bounds for them *)
Definition relabel (s : elkan_state) : list sample_state :=
  map (fun xs => assign_sample k (es_C s) (es_hd s) (es_nd s) (fst xs) (snd xs)) (combine X (es_ss s)).
Definition labels_of (ss : list sample_state) : list nat := map e_label ss.
(** perform_kmeans, kmeans.cpp lines 995-1058, for Elkan's algorithm; after a split (lines 1316-1323) all bounds are reset,
    the half distances stay those of the centres before it *)
Fixpoint elkan_loop (fuel iter : nat) (s : elkan_state) : run :=
  match fuel with
  | O => Finished (es_C s) (labels_of (relabel s)) iter 0
  | S fuel =>
      let prev := labels_of (es_ss s) in
      let ss := relabel s in
      let ls := labels_of ss in
      let C' := new_centres N Plain bs (schedule iter) k nf ls X in
      let s' := with_halves C' (map (move_bounds (centre_shifts (es_C s) C')) ss) in
      let test :=
        match convergence_test N lange iter ls prev tol (es_C s) C' with
        | O => elkan_loop fuel (S iter) s'
        | 1%nat => Finished C' (labels_of (relabel s')) iter 1
        | c => Finished C' ls iter c
        end in
      match mode with
      | Ignore => test
      | Error => if any_empty k ls then EmptyCluster else test
      | Split =>
          if any_empty k ls then
            let (C'', ls'') := split_empty N isfin k X C' ls in
            elkan_loop fuel (S iter)
              (ElkanState C'' (es_hd s') (es_nd s') (map (fun l => SampleState l (highest N) (repeat (zero N) k)) ls''))
          else test
      end
  end.
Definition elkan_start (C : list row) : elkan_state :=
  with_halves C (map (init_sample k C (half_distances k C)) X).
Definition elkan (max_iter : nat) (C : list row) : run := elkan_loop max_iter 0 (elkan_start C).
End Elkan.
