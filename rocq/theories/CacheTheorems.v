(** Theorems about the kernel column cache. *)
From Coq Require Import ZArith List Bool Permutation.
From Verif Require Import Base CacheModel CacheSpec CacheProofs CacheLruProofs CacheKernelProofs.
Import ListNotations.

(** C11: with insertions of columns not yet cached, a lookup answers as the reference
    least-recently-used cache does, and every hit designates a stored column. *)
Theorem cache_is_least_recently_used :
  forall C n h, fresh_puts n [] h ->
    exists c, run (set_size C n) h = Some c /\
      forall k, match get k c with
                | Miss => lru_find k (lru_run n [] h) = None
                | Hit s _ => lru_find k (lru_run n [] h) = seen k c /\ seen k c <> None
                | Dangling => False
                end.
Proof. exact reference_lemma. Qed.
Print Assumptions cache_is_least_recently_used.

Definition ex_hist : list (cop Z) :=
  [Put [1; 2]%Z (Some [10; 20]%Z); Get 1%Z; Put [3]%Z (Some [30]%Z); Put [4; 5]%Z (Some [40; 50]%Z)].
Example lru_case :
  fresh_puts 3 [] ex_hist /\
  lru_run 3 [] ex_hist = [(5, 50); (4, 40); (3, 30)]%Z /\
  (match run (set_size Z 3) ex_hist with Some c => map (fun k => seen k c) [1; 2; 3; 4; 5]%Z
                                       | None => [] end)
  = [None; None; Some 30; Some 40; Some 50]%Z.
Proof.
  split; [|split; reflexivity].
  cbn. repeat split; auto; try (repeat constructor; cbn; intuition discriminate);
    intros k Hk; cbn in Hk; intuition (subst; reflexivity).
Qed.

(** C11, arbitrary histories (repeated keys, more keys than the capacity, null data): a lookup
    never uses a dangling iterator, and a hit returns a column passed for that key by the last
    successful insertion that mentions it. *)
Theorem cache_hit_returns_last_stored :
  forall C n h, Forall sized h ->
    exists c, run (set_size C n) h = Some c /\
      forall k, get k c <> Dangling /\
        (forall s c', get k c = Hit s c' ->
           exists kv v, last_put k h = Some kv /\ In (k, v) kv /\ seen k c = Some v).
Proof. exact last_stored_lemma. Qed.
Print Assumptions cache_hit_returns_last_stored.

Example last_stored_case :
  let h := [Put [7; 7]%Z (Some [1; 2]%Z); Get 7%Z; Put [8; 7]%Z (Some [3; 4]%Z); Put [9]%Z None] in
  Forall sized h /\
  match run (set_size Z 5) h with Some c => seen 7%Z c = Some 4%Z | None => False end.
Proof.
  split; [|reflexivity]. repeat (apply Forall_cons; [cbn; auto|]). apply Forall_nil.
Qed.

(** C12, immediately after the insertion: every key of an insertion that fits in the cache is
    found with a column of that insertion, cached before or not.
    Missing: it stays found while fewer than capacity other columns are used, see below. *)
Theorem cache_update_visible_partial :
  forall C n h ks cols, Forall sized h -> Forall succeeding h ->
    length ks = length cols -> length ks <= n ->
    exists c, run (set_size C n) (h ++ [Put ks (Some cols)]) = Some c /\
      forall k, In k ks -> exists v, seen k c = Some v /\ In (k, v) (combine ks cols).
Proof. exact put_hits_lemma. Qed.
Print Assumptions cache_update_visible_partial.

Example update_visible_case :
  let h := [Put [1]%Z (Some [10]%Z)] in
  Forall sized h /\ Forall succeeding h /\
  match run (set_size Z 3) (h ++ [Put [1; 2]%Z (Some [11; 20]%Z)]) with
  | Some c => seen 1%Z c = Some 11%Z | None => False end.
Proof.
  split; [|split; [|reflexivity]]; repeat (apply Forall_cons; [cbn; auto|]); apply Forall_nil.
Qed.

(** C12 is false: with room for three columns, key 1 is updated, then two other columns are
    stored, and key 1 is lost (the node left by the first insertion is evicted and takes the
    mapping of the new one with it). *)
Theorem cache_update_lost_refuted :
  exists (h : list (cop Z)) c,
    h = [Put [1]%Z (Some [10]%Z); Put [1]%Z (Some [11]%Z); Put [2]%Z (Some [20]%Z);
         Put [3]%Z (Some [30]%Z)] /\
    run (set_size Z 3) h = Some c /\ seen 1%Z c = None.
Proof. eexists. eexists. split; [reflexivity|]. split; vm_compute; reflexivity. Qed.
Print Assumptions cache_update_lost_refuted.

(** C49: insertions running in several threads, in every interleaving: a thread copies columns
    only to slots inside the buffer that no other thread holds, and no copy changes the column any
    lookup sees. *)
Theorem concurrent_insertions_are_disjoint :
  forall C n l,
    let s := trun (mkCS (set_size C n) []) l in
    (forall k, get k (shared s) <> Dangling) /\
    (forall t ks sl x, of_thread t (pending s) = Some (ks, sl) -> In x sl -> x < n) /\
    (forall t1 t2 ks1 sl1 ks2 sl2 x, t1 <> t2 ->
       of_thread t1 (pending s) = Some (ks1, sl1) -> of_thread t2 (pending s) = Some (ks2, sl2) ->
       In x sl1 -> ~ In x sl2) /\
    (forall t i v k, seen k (shared (tnext s (TWrite t i v))) = seen k (shared s)).
Proof. exact concurrent_lemma. Qed.
Print Assumptions concurrent_insertions_are_disjoint.

Example concurrent_case :
  let s := trun (mkCS (set_size Z 3) [])
             [TTake 0 [1; 2]%Z; TTake 1 [3]%Z; TWrite 1 0 30%Z; TWrite 0 1 20%Z; TWrite 0 0 10%Z;
              TLink 1; TTake 2 [4]%Z; TLink 0; TWrite 2 0 40%Z] in
  map (fun k => seen k (shared s)) [1; 2; 3; 4]%Z = [Some 10; Some 20; None; None]%Z /\
  of_thread 2 (pending s) = Some ([4]%Z, [2]).
Proof. split; reflexivity. Qed.

(** C50: for every cache the solver can hold, every kernel computation on at most [ws] indices
    gives, for each position of the working set, exactly one pointer, and the column it designates
    once the computation is over is the kernel column of that sample; repeated samples (SVR
    indices modulo the number of samples) included. *)
Theorem kernel_columns_are_right :
  forall C (K : Z -> C) N n ws c idx temp,
    svm_cache K N n ws c -> length idx <= ws ->
    exists c' temp' ptrs,
      kernel_compute K (is_active n) (is_smaller n ws) N idx c temp = Some (c', temp', ptrs) /\
      Permutation (map fst ptrs) (seq 0 (length idx)) /\
      (forall i p, In (i, p) ptrs -> deref temp' c' p = Some (K (nth i idx 0 mod N)%Z)).
Proof. exact kernel_columns_lemma. Qed.
Print Assumptions kernel_columns_are_right.

(** Capacity 2 smaller than a working set of 3; the second computation finds sample 1 cached. *)
Example kernel_columns_case :
  let K := fun k => (100 + k)%Z in
  exists c temp ptrs c' temp' ptrs',
    kernel_compute K (is_active 2) (is_smaller 2 3) 4 [1; 5; 2]%Z (set_size Z 2) (fun _ => None)
      = Some (c, temp, ptrs) /\ svm_cache K 4 2 3 c /\
    kernel_compute K (is_active 2) (is_smaller 2 3) 4 [3; 1; 0]%Z c temp = Some (c', temp', ptrs') /\
    map (fun e => (fst e, deref temp' c' (snd e))) ptrs'
      = [(1, Some 101%Z); (0, Some 103%Z); (2, Some 100%Z)].
Proof.
  intros K. do 6 eexists. split; [vm_compute; reflexivity|]. split.
  - eapply (sc_compute K 4 2 3 _ [1; 5; 2]%Z (fun _ => None)); [apply sc_new|auto|].
    vm_compute. reflexivity.
  - split; vm_compute; reflexivity.
Qed.
