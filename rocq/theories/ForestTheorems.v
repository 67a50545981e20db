(** Decision forests: votes, probabilities, score (C39, C65-C67). *)
From Coq Require Import ZArith List Bool Permutation Lia Reals Lra.
From Flocq Require Import Core IEEE754.BinarySingleNaN.
From Verif Require Import Base Par F64 UtilModel SortModel ForestModel ForestSpec ForestProofs ForestVoteProofs ForestProbaProofs.
Import ListNotations.
Local Open Scope Z_scope.

(** C39: for every block size, every way to divide the iterations between the threads the buffer was made for, and
    every interleaving, the result is the majority.  Not covered: an iteration given to a thread with a larger number
    (see the refutation below). *)
Theorem forest_vote_partial nsamp n_class n_tree block_size n_blocks block_rem n_threads vote sched tr :
  0 <= nsamp -> 0 < block_size -> 0 < n_class ->
  blocking_scheme nsamp block_size = Some (n_blocks, block_rem) ->
  (forall t s, 0 <= t < n_tree -> 0 <= s < nsamp -> 0 <= vote t s < n_class) ->
  team n_threads (iterations n_blocks n_tree) sched ->
  interleaving (threads (vote_body nsamp n_class block_size n_blocks block_rem vote) 0 sched) tr ->
  exists pred, predict_with nsamp n_class block_size n_threads tr = Some pred /\
    forall s, 0 <= s < nsamp -> majority vote n_tree n_class s (pred s).
Proof. intros Hn Hb Hc Hs Hv. exact (votes_counted nsamp n_class n_tree block_size n_blocks block_rem n_threads vote Hn Hb Hs Hc Hv sched tr). Qed.
Print Assumptions forest_vote_partial.

(** Five samples in blocks of two, three trees and classes, two threads whose steps alternate in any way *)
Definition some_votes (t s : Z) : Z := (t * t + s) mod 3.
Definition two_threads : list (list (Z * Z)) := [[(0, 0); (2, 2); (1, 1); (0, 2)]; [(2, 0); (2, 1); (0, 1); (1, 2); (1, 0)]].
Example forest_vote_case :
  blocking_scheme 5 2 = Some (3, 1) /\ team 2 (iterations 3 3) two_threads /\
  option_map (fun p => map p (zrange 5))
    (predict_with 5 3 2 2 (concat (threads (vote_body 5 3 2 3 1 some_votes) 0 two_threads))) = Some [1; 2; 0; 1; 2].
Proof.
  split; [reflexivity|split; [split; [cbn; lia|]|vm_compute; reflexivity]].
  apply NoDup_Permutation.
  - vm_compute. repeat constructor; cbn; intuition congruence.
  - vm_compute. repeat constructor; cbn; intuition congruence.
  - intros it. vm_compute. intuition (subst; auto 12).
Qed.

(** The buffer has as many parts as there are iterations if that is less than the number of threads, and the loop
    has no schedule clause: an implementation of OpenMP that gives the only iteration to the second of two threads
    (any one is allowed to) makes the loop write behind the buffer. *)
Theorem forest_vote_thread_beyond_refuted :
  ~ (forall nsamp n_class n_tree block_size n_blocks block_rem max_threads vote sched tr,
       0 < nsamp -> 0 < block_size -> 0 < n_class -> 0 < n_tree -> 0 < max_threads ->
       blocking_scheme nsamp block_size = Some (n_blocks, block_rem) ->
       (forall t s, 0 <= t < n_tree -> 0 <= s < nsamp -> 0 <= vote t s < n_class) ->
       team max_threads (iterations n_blocks n_tree) sched ->
       interleaving (threads (vote_body nsamp n_class block_size n_blocks block_rem vote) 0 sched) tr ->
       predict_with nsamp n_class block_size (get_n_threads_loop max_threads 1 0 (n_blocks * n_tree)) tr <> None).
Proof.
  intros H. apply (H 1 1 1 1 1 0 2 (fun _ _ => 0) [[]; [(0, 0)]] (concat (threads (vote_body 1 1 1 1 0 (fun _ _ => 0)) 0 [[]; [(0, 0)]])));
    try lia; try reflexivity.
  - split; [cbn; lia|]. vm_compute. auto.
  - apply interleaving_seq.
Qed.
Print Assumptions forest_vote_thread_beyond_refuted.

(** C66: the score in double precision is the correctly rounded proportion of samples whose majority class is the
    given one. *)
Theorem forest_score_double nsamp n_class n_tree block_size n_blocks block_rem n_threads vote y sched tr :
  1 <= nsamp <= 2 ^ 53 -> 0 < block_size -> 0 < n_class ->
  blocking_scheme nsamp block_size = Some (n_blocks, block_rem) ->
  (forall t s, 0 <= t < n_tree -> 0 <= s < nsamp -> 0 <= vote t s < n_class) ->
  team n_threads (iterations n_blocks n_tree) sched ->
  interleaving (threads (vote_body nsamp n_class block_size n_blocks block_rem vote) 0 sched) tr ->
  exists pred score, score_with nsamp n_class block_size n_threads tr y = Some score /\
    (forall s, 0 <= s < nsamp -> majority vote n_tree n_class s (pred s)) /\
    is score (rnd (IZR (right pred y nsamp) / IZR nsamp)).
Proof.
  intros Hn Hb Hc Hs Hv T I.
  destruct (votes_counted nsamp n_class n_tree block_size n_blocks block_rem n_threads vote ltac:(lia) Hb Hs Hc Hv sched tr T I) as (pred & E & M).
  exists pred. eexists. unfold score_with. rewrite E. cbn [bind]. split; [reflexivity|split; auto]. apply score_value; auto.
Qed.
Print Assumptions forest_score_double.
Example forest_score_case :
  option_map (fun x => f64_trunc (f64_mul (f64_of_Z 100) x))
    (score_with 5 3 2 2 (concat (threads (vote_body 5 3 2 3 1 some_votes) 0 two_threads)) (fun s => if s <? 2 then 0 else (s + 1) mod 3)) = Some 60.
Proof. vm_compute. reflexivity. Qed.

(** In single precision the count stops at 2^24: all predictions are right, but the score is at most one half. *)
Theorem forest_score_single_refuted :
  exists (pred y : Z -> Z) nsamp, right pred y nsamp = nsamp /\ (B2R (f32_score pred y nsamp) <= / 2)%R.
Proof.
  exists (fun _ => 0), (fun _ => 0), (2 ^ 25). split; [|apply score32_stops].
  unfold right. change (fun _ : Z => 0 =? 0) with (fun _ : Z => true).
  assert (E : forall l : list Z, filter (fun _ => true) l = l) by (induction l; cbn; congruence).
  rewrite E, zrange_len. lia.
Qed.
Print Assumptions forest_score_single_refuted.

(** C65: each probability is the mean of those of the trees added in some order, which may differ between samples and
    classes, normalised. *)
Theorem forest_probabilities_partial nsamp n_class n_tree block_size n_blocks block_rem n_threads proba sched tr :
  0 <= nsamp -> 0 < block_size -> 0 < n_class ->
  blocking_scheme nsamp block_size = Some (n_blocks, block_rem) ->
  team n_threads (iterations n_blocks n_tree) sched ->
  interleaving (threads (proba_body nsamp n_class block_size n_blocks block_rem n_threads proba) 0 sched) tr ->
  exists res, proba_with nsamp n_class n_tree block_size n_threads tr = Some res /\
    forall s, 0 <= s < nsamp -> exists sum,
      (forall j, 0 <= j < n_class -> exists order, Permutation order (zrange n_tree) /\ sum j = sum_in_order (map (fun t => proba t s j) order)) /\
      forall j, 0 <= j < n_class -> res s j = normalised n_tree n_class sum j.
Proof. intros Hn Hb Hc Hs. exact (sums_in_some_order nsamp n_class n_tree block_size n_blocks block_rem n_threads proba Hn Hb Hs sched tr). Qed.
Print Assumptions forest_probabilities_partial.

Definition some_or {A} (d : A) (o : option A) : A := match o with Some a => a | None => d end.
Lemma some_or_eq {A} (d : A) (o : option A) : (if o then true else false) = true -> o = Some (some_or d o).
Proof. destruct o; auto; discriminate. Qed.

(** Three trees give 1/10, 2/10 and 3/10; their order changes the result. *)
Definition tenths (t s j : Z) : f64 := f64_div (f64_of_Z (if j =? 0 then t + 1 else 9 - t)) (f64_of_Z 10).
Definition three_threads : list (list (Z * Z)) := [[(0, 0)]; [(0, 1)]; [(0, 2)]].
Definition tenths_threads := threads (proba_body 1 2 1 1 0 3 tenths) 0 three_threads.
Theorem forest_probabilities_repeatable_refuted :
  exists tr tr' res res',
    team 3 (iterations 1 3) three_threads /\
    interleaving tenths_threads tr /\ interleaving tenths_threads tr' /\
    proba_with 1 2 3 1 3 tr = Some res /\ proba_with 1 2 3 1 3 tr' = Some res' /\
    f64_lt (res 0 0) (res' 0 0) = true /\ f64_lt (res 0 1) (res' 0 1) = true.
Proof.
  exists (concat tenths_threads), (concat (rev tenths_threads)),
    (some_or (fun _ _ : Z => f64_of_Z 0) (proba_with 1 2 3 1 3 (concat tenths_threads))),
    (some_or (fun _ _ : Z => f64_of_Z 0) (proba_with 1 2 3 1 3 (concat (rev tenths_threads)))).
  split; [split; [cbn; lia|vm_compute; repeat constructor]|].
  split; [apply interleaving_seq|].
  split; [apply (interleaving_swap _ _ (interleaving_seq _)), Permutation_sym, Permutation_rev|].
  split; [apply some_or_eq; vm_compute; reflexivity|]. split; [apply some_or_eq; vm_compute; reflexivity|].
  split; vm_compute; reflexivity.
Qed.
Print Assumptions forest_probabilities_repeatable_refuted.

(** If every leaf holds one class only (trees grown until then), the probabilities are the normalised votes, for every
    execution. *)
Theorem pure_forest_probabilities nsamp n_class n_tree block_size n_blocks block_rem n_threads proba vote sched tr :
  0 <= nsamp -> 0 < block_size -> 0 < n_class -> 0 <= n_tree <= 2 ^ 53 ->
  blocking_scheme nsamp block_size = Some (n_blocks, block_rem) ->
  pure proba vote ->
  team n_threads (iterations n_blocks n_tree) sched ->
  interleaving (threads (proba_body nsamp n_class block_size n_blocks block_rem n_threads proba) 0 sched) tr ->
  exists res, proba_with nsamp n_class n_tree block_size n_threads tr = Some res /\
    forall s j, 0 <= s < nsamp -> 0 <= j < n_class ->
      res s j = normalised n_tree n_class (fun j => f64_of_Z (votes vote n_tree s j)) j.
Proof. exact (pure_results nsamp n_class n_tree block_size n_blocks block_rem n_threads proba vote sched tr). Qed.
Print Assumptions pure_forest_probabilities.

(** ... and no class has a larger one than the predicted class. *)
Theorem pure_forest_vote_most_probable vote n_tree n_class s c k :
  1 <= n_tree <= 2 ^ 53 -> n_class <= 2 ^ 52 ->
  (forall t, 0 <= t < n_tree -> 0 <= vote t s < n_class) ->
  majority vote n_tree n_class s c -> 0 <= k < n_class ->
  let p := normalised n_tree n_class (fun j => f64_of_Z (votes vote n_tree s j)) in
  f64_le (p k) (p c) = true.
Proof. exact (majority_most_probable vote n_tree n_class s c k). Qed.
Print Assumptions pure_forest_vote_most_probable.

Example pure_case :
  let proba t s j := f64_of_Z (if some_votes t s =? j then 1 else 0) in
  pure proba some_votes /\ majority some_votes 3 3 0 1 /\
  option_map (fun p => map (fun j => f64_trunc (f64_mul (f64_of_Z 100) (p 0 j))) (zrange 3))
    (proba_with 5 3 3 2 2 (concat (threads (proba_body 5 3 2 3 1 2 proba) 0 two_threads))) = Some [33; 66; 0].
Proof.
  split; [intros t s j; reflexivity|]. split; [|vm_compute; reflexivity].
  split; [lia|]. intros k K. assert (k = 0 \/ k = 1 \/ k = 2) as [-> |[-> | ->]] by lia; vm_compute; split; intros; congruence.
Qed.

(** With other leaves, the predicted class need not be the most probable one: two trees give class 0 with
    probability 6/10, the third class 1 with probability 1. *)
Definition uneven (t s j : Z) : f64 :=
  f64_div (f64_of_Z (if t =? 2 then (if j =? 0 then 0 else 10) else (if j =? 0 then 6 else 4))) (f64_of_Z 10).
Definition uneven_vote (t s : Z) : Z := if t =? 2 then 1 else 0.
Theorem forest_vote_not_most_probable_refuted :
  exists tr tr' pred res,
    (forall t j, 0 <= t < 3 -> f64_le (uneven t 0 j) (uneven t 0 (uneven_vote t 0)) = true) /\
    interleaving (threads (vote_body 1 2 1 1 0 uneven_vote) 0 three_threads) tr /\
    interleaving (threads (proba_body 1 2 1 1 0 3 uneven) 0 three_threads) tr' /\
    predict_with 1 2 1 3 tr = Some pred /\ proba_with 1 2 3 1 3 tr' = Some res /\
    f64_lt (res 0 (pred 0)) (res 0 1) = true.
Proof.
  exists (concat (threads (vote_body 1 2 1 1 0 uneven_vote) 0 three_threads)), (concat (threads (proba_body 1 2 1 1 0 3 uneven) 0 three_threads)),
    (some_or (fun _ : Z => 0) (predict_with 1 2 1 3 (concat (threads (vote_body 1 2 1 1 0 uneven_vote) 0 three_threads)))),
    (some_or (fun _ _ : Z => f64_of_Z 0) (proba_with 1 2 3 1 3 (concat (threads (proba_body 1 2 1 1 0 3 uneven) 0 three_threads)))).
  split.
  - intros t j T. unfold uneven, uneven_vote. assert (t = 0 \/ t = 1 \/ t = 2) as [-> |[-> | ->]] by lia; destruct (j =? 0); vm_compute; reflexivity.
  - split; [apply interleaving_seq|]. split; [apply interleaving_seq|].
    split; [apply some_or_eq; vm_compute; reflexivity|]. split; [apply some_or_eq; vm_compute; reflexivity|]. vm_compute. reflexivity.
Qed.
Print Assumptions forest_vote_not_most_probable_refuted.

(** C67: the threads for the trees that are trained at the same time are at most the available ones; every tree has at
    least one, and at most the given maximum. *)
Theorem threads_for_trees total n_tree mx : 1 <= total -> 1 <= n_tree -> 0 <= mx ->
  let '(nf, per) := compute_thread_distribution total n_tree mx in
  1 <= nf <= total /\ nf <= n_tree /\
  (forall i, 0 <= i < n_tree -> 1 <= per i /\ (0 < mx -> per i <= mx)) /\
  (if n_tree <=? total then sum_below per n_tree <= total else forall i, 0 <= i < n_tree -> per i = 1).
Proof. exact (thread_distribution total n_tree mx). Qed.
Print Assumptions threads_for_trees.
Example threads_case :
  let '(nf, per) := compute_thread_distribution 16 5 0 in nf = 5 /\ map per (zrange 5) = [4; 3; 3; 3; 3].
Proof. vm_compute. auto. Qed.
