(** Decision forests: threads for the training, votes, probabilities and score.
    source/core/decision_forest/forest/decision_forest_inference.hpp, decision_forest_training.hpp,
    source/core/utilities/da_utils.cpp.

    The trees are given by what they return for a test sample.  [None] is an access outside an array.
    Integers do not overflow. *)
From Coq Require Import ZArith List Bool.
From Flocq Require Import Core IEEE754.BinarySingleNaN.
From Verif Require Import Base Par F64 UtilModel SortModel.
Import ListNotations.
Local Open Scope Z_scope.

(** get_n_threads_loop, da_utils.cpp 135-140 *)
Definition get_n_threads_loop (max_threads max_active_levels level loop_size : Z) : Z :=
  if max_active_levels =? level then 1 else Z.min max_threads loop_size.

(** ** The parallel loop over blocks and trees *)
Section Loop.
(** values in the buffer; what is added to the shared array *)
Variables (V E : Type).
(** The steps of a thread: store into the buffer ([ok]: the test data that are read exist), load into the
    register of the thread, one atomic update with the register. *)
Inductive step :=
| Put (ok : bool) (pos : Z) (v : V)
| Load (reg pos : Z)
| Add (reg : Z) (f : V -> E).
(** buffer, registers, atomic updates made so far *)
Record memory := Memory { buf : Z -> V; regs : Z -> V; updates : list E }.

(** [len]: size of the buffer *)
Variable len : Z.
Definition exec (m : memory) (a : step) : option memory :=
  match a with
  | Put ok pos v => if ok && inside len pos then Some (Memory (store_at (buf m) pos v) (regs m) (updates m)) else None
  | Load r pos => if inside len pos then Some (Memory (buf m) (store_at (regs m) r (buf m pos)) (updates m)) else None
  | Add r f => Some (Memory (buf m) (regs m) (updates m ++ [f (regs m r)]))
  end.
Fixpoint run (tr : list step) (m : memory) : option memory :=
  match tr with [] => Some m | a :: tr => bind (exec m a) (run tr) end.

(** The iterations (block, tree) each thread of the team gets; [body] are the steps of one iteration in a
    thread. *)
Fixpoint threads (body : Z -> Z * Z -> list step) (id : Z) (sched : list (list (Z * Z))) : list (list step) :=
  match sched with
  | [] => []
  | its :: rest => concat (map (body id) its) :: threads body (id + 1) rest
  end.
End Loop.
Arguments Put {V E}. Arguments Load {V E}. Arguments Add {V E}.
Arguments buf {V E}. Arguments regs {V E}. Arguments updates {V E}. Arguments Memory {V E}.
Arguments exec {V E}. Arguments run {V E}. Arguments threads {V E}.

(** The iterations of the collapsed loops *)
Definition iterations (n_blocks n_tree : Z) : list (Z * Z) :=
  flat_map (fun b => map (fun t => (b, t)) (zrange n_tree)) (zrange n_blocks).
(** decision_forest_inference.hpp 54-57 and 209-212 *)
Definition n_elem (n_blocks block_size block_rem b : Z) : Z :=
  if (b =? n_blocks - 1) && (0 <? block_rem) then block_rem else block_size.

Section Predict.
Variables (nsamp n_class n_tree block_size n_blocks block_rem n_threads : Z).

(** ** parallel_count_classes, decision_forest_inference.hpp 37-67; [vote t s]: the class tree [t] predicts for
    sample [s] *)
Variable vote : Z -> Z -> Z.
Definition vote_body (thread : Z) (it : Z * Z) : list (step Z Z) :=
  let '(b, t) := it in
  let start := b * block_size in
  let base := thread * block_size in
  let n := n_elem n_blocks block_size block_rem b in
  map (fun i => Put (inside nsamp (start + i)) (base + i) (vote t (start + i))) (zrange n)
  ++ flat_map (fun i => [Load thread (base + i); Add thread (fun c => (start + i) * n_class + c)]) (zrange n).
(** The updates of count_classes *)
Fixpoint count_classes (cells : list Z) (count : Z -> Z) : option (Z -> Z) :=
  match cells with
  | [] => Some count
  | p :: rest => if inside (n_class * nsamp) p then count_classes rest (store_at count p (count p + 1)) else None
  end.
(** lines 124-131 *)
Definition best_class (count : Z -> Z) (i : Z) : Z :=
  snd (fold_left (fun '(m, k) c => if m <? count (i * n_class + c) then (count (i * n_class + c), c) else (m, k))
                 (zrange n_class) (-1, -1)).
(** lines 107-132 after the blocking scheme: [tr] is the order in which the steps are done.  The iterations
    of the second loop write one element each. *)
Definition predict_with (tr : list (step Z Z)) : option (Z -> Z) :=
  bind (run (n_threads * block_size) tr (Memory (fun _ => 0) (fun _ => 0) [])) (fun m =>
  bind (count_classes (updates m) (fun _ => 0)) (fun count =>
  Some (best_class count))).

(** ** score, lines 316-344: the classes as in predict, then one atomic increment of [*score] for every right
    one, in any order *)
Definition score_with (tr : list (step Z Z)) (y : Z -> Z) : option f64 :=
  bind (predict_with tr) (fun pred =>
    Some (f64_div (fold_left (fun a i => if pred i =? y i then f64_add a (f64_of_Z 1) else a) (zrange nsamp) (f64_of_Z 0))
                  (f64_of_Z nsamp))).

(** ** predict_proba, lines 182-242; [proba t s j]: the probability of class [j] from tree [t] for sample [s].
    sum_proba is zero at the start (resize). *)
Variable proba : Z -> Z -> Z -> f64.
Definition proba_body (thread : Z) (it : Z * Z) : list (step f64 (Z * f64)) :=
  let '(b, t) := it in
  let start := b * block_size in
  let base := thread * block_size in
  let ld := n_threads * block_size in
  let n := n_elem n_blocks block_size block_rem b in
  flat_map (fun i => map (fun j => Put (inside nsamp (start + i)) (base + ld * j + i) (proba t (start + i) j)) (zrange n_class))
           (zrange n)
  ++ flat_map (fun i =>
       flat_map (fun j => [Load thread (base + j * n_threads * block_size + i);
                           Add thread (fun p => (j * nsamp + start + i, p))]) (zrange n_class)) (zrange n).
Fixpoint sum_proba (ups : list (Z * f64)) (sum : Z -> f64) : option (Z -> f64) :=
  match ups with
  | [] => Some sum
  | (p, v) :: rest =>
      if inside (n_class * nsamp) p then sum_proba rest (store_at sum p (f64_add (sum p) v)) else None
  end.
(** lines 228-242: the value stored for sample [i] and class [j] *)
Definition average (sum : Z -> f64) (i j : Z) : f64 :=
  let ave j := f64_div (sum (j * nsamp + i)) (f64_of_Z n_tree) in
  f64_div (ave j) (fold_left (fun a j => f64_add a (ave j)) (zrange n_class) (f64_of_Z 0)).
Definition proba_with (tr : list (step f64 (Z * f64))) : option (Z -> Z -> f64) :=
  bind (run (n_threads * n_class * block_size) tr (Memory (fun _ => f64_of_Z 0) (fun _ => f64_of_Z 0) [])) (fun m =>
  bind (sum_proba (updates m) (fun _ => f64_of_Z 0)) (fun sum =>
  Some (average sum))).
End Predict.

(** ** compute_thread_distribution, decision_forest_training.hpp 39-64: the threads for the forest and for
    every tree *)
Definition compute_thread_distribution (total_threads n_tree max_tree_threads : Z) : Z * (Z -> Z) :=
  let n_forest := Z.min n_tree total_threads in
  let remaining := total_threads - n_forest in
  if remaining <=? 0 then (n_forest, fun _ => 1)
  else
    let per_tree := Z.quot remaining n_tree + 1 in
    if (0 <? max_tree_threads) && (max_tree_threads <=? per_tree) then (n_forest, fun _ => max_tree_threads)
    else (n_forest, fun i => if i <? Z.rem remaining n_tree then per_tree + 1 else per_tree).

(** ** score in single precision: the values of [*score] after [n] increments (float has 24 bits) *)
Definition f32 := binary_float 24 128.
Definition f32_of_Z (z : Z) : f32 := binary_normalize 24 128 eq_refl eq_refl mode_NE z 0 false.
#[global] Instance prec24 : Prec_gt_0 24 := eq_refl.
#[global] Instance prec24_emax : Prec_lt_emax 24 128 := eq_refl.
Definition f32_add (x y : f32) : f32 := Bplus mode_NE x y.
Definition f32_div (x y : f32) : f32 := Bdiv mode_NE x y.
Definition f32_score (pred y : Z -> Z) (nsamp : Z) : f32 :=
  f32_div (fold_left (fun a i => if pred i =? y i then f32_add a (f32_of_Z 1) else a) (zrange nsamp) (f32_of_Z 0))
          (f32_of_Z nsamp).
