(** The inverted file index of the approximate nearest neighbours: the theorems. *)
From Coq Require Import ZArith QArith Qround List Bool Reals Permutation Sorted Lia Lra.
From Verif Require Import Base Par UtilModel NnModel NnSpec NnFloatProofs IvfModel IvfSpec IvfProofs IvfSearchProofs.
Import ListNotations.
Local Open Scope Z_scope.

(** C153.  After training on new data, whatever is added and searched in whatever order (and whatever options other than
    the locked ones change), the index holds exactly the rows added, numbered in the order in which they were added, each
    in the list of the first centroid nearest to it.  Missing: a handle that is trained again, see the refutation. *)
Theorem index_holds_rows_partial : forall (T V : Type) (N : arith T) (num : T -> Prop) (key : T -> R) (D : V -> V -> T) (inf : T)
    (row0 : V) (kmeans : Z -> Z -> list V) (b : nat) (stale : Z -> Z) (s0 s2 : ivf) (X : list V) (calls : list call),
  compares (lt N) (le N) num key -> kmeans_contract kmeans -> 0 < o_n_list (opts s0) ->
  train kmeans (fst (set_training_data s0 X)) = (s2, Success) ->
  Forall (keeps_training (o_n_list (opts s0)) (o_metric (opts s0))) calls ->
  (forall r c, In r (added calls) -> In c (centroids s2) -> num (D r c)) ->
  exists s3 sts, run_all N D inf row0 kmeans b stale s2 calls = Some (s3, sts) /\ holds key D row0 s3 (added calls).
Proof.
  intros T V N num key D inf row0 kmeans b stale s0 s2 X calls Hc Hk Hnl Ht Hcalls Hn.
  destruct (train_ok N D row0 kmeans s0 X s2 Ht) as (Hi & n & En).
  destruct (run_ok N D inf row0 kmeans b stale calls s2 _ _ _ [] Hi Hcalls) as ((s3 & sts & E) & G).
  exists s3, sts. split; auto. specialize (G _ _ E). simpl in G.
  apply (index_holds N num key D row0 Hc s3 _ _ _ _ G); auto. rewrite En. apply Hk.
Qed.
Print Assumptions index_holds_rows_partial.

(** two lists around 0 and 10; three rows, then two more *)
Example index_case :
  let o := Options 2 1 1 1 0 in
  let s2 := fst (train ends (fst (set_training_data (fresh o) [1; 9; 4]))) in
  snd (train ends (fst (set_training_data (fresh o) [1; 9; 4]))) = Success /\
  match run_all arithZ line (2 ^ 62) 0 ends 2 (fun _ => 0) s2 [Add [1; 9; 4]; Search 1 3; Add [11; 2]] with
  | Some (s, sts) => sts = [Success; Success; Success] /\ global_indices s = [[0; 2; 4]; [1; 3]] /\
      indexed_vectors s = [[1; 4; 2]; [9; 11]] /\ n_index s = 5
  | None => False
  end.
Proof. vm_compute. repeat split; reflexivity. Qed.
Example index_case_applies : compares (lt arithZ) (le arithZ) any IZR /\ kmeans_contract ends /\
  Forall (keeps_training 2 0) [Add [1; 9; 4]; Search 1 3; Add [11; 2]].
Proof.
  repeat split; try exact (proj1 (m_order _ _ _ _ integers_monotone) _ _ I I);
    try exact (proj2 (m_order _ _ _ _ integers_monotone) _ _ I I).
  - apply (proj1 (m_order _ _ _ _ integers_monotone)); exact I.
  - apply (proj1 (m_order _ _ _ _ integers_monotone)); exact I.
  - apply (proj2 (m_order _ _ _ _ integers_monotone)); exact I.
  - apply (proj2 (m_order _ _ _ _ integers_monotone)); exact I.
  - intros n nl. unfold ends. now rewrite map_length, zrange_len.
  - repeat constructor.
Qed.

(** Training again empties the lists but not the count of the rows: da_approx_nn_train_and_add called twice returns
    indices that no row has, and lets more neighbours be asked for than there are rows. *)
Theorem index_numbering_refuted : exists (o : options) (X : list Z) (s : ivf),
  run_all arithZ line (2 ^ 62) 0 ends 2 (fun _ => 0) (fresh o) [Set_data X; Train; Add X; Train; Add X] =
    Some (s, [Success; Success; Success; Success; Success]) /\
  ~ holds IZR line 0 s X /\ length X = 2%nat /\
  kneighbors arithZ line (2 ^ 62) s 1 2 (fun _ => 0) 5 = Some (Success, [(2, 0)]) /\
  kneighbors arithZ line (2 ^ 62) s 4 2 (fun _ => 0) 5 = Some (Success, [(2, 0); (3, 4); (-1, 2 ^ 62); (-1, 2 ^ 62)]).
Proof.
  exists (Options 1 1 1 1 0), [5; 7]. eexists. split; [vm_compute; reflexivity|].
  split; [|split; [reflexivity|split; vm_compute; reflexivity]].
  intros (H & _). vm_compute in H. discriminate.
Qed.
Print Assumptions index_numbering_refuted.

(** C154.  A search returns the k rows nearest to the query among the rows of the n_probe lists whose centroids are
    nearest to it, in the order of their distances, and fills the answer up with the index -1 if there are fewer.  For
    every size of the blocks, and whatever the buffers hold. *)
Theorem search_finds_the_nearest_probed : forall (T V : Type) (N : arith T) (num : T -> Prop) (key : T -> R) (D : V -> V -> T)
    (inf : T) (s : ivf) (np k : Z) (b : nat) (stale : Z -> Z) (q : V),
  compares (lt N) (le N) num key -> sizes_fit s -> 0 < np <= n_list s -> 0 < k -> (0 < b)%nat -> lt N inf inf = false ->
  (forall c, In c (centroids s) -> usable N num inf (D q c)) ->
  (forall j r, (j < Z.to_nat (n_list s))%nat -> In r (nth j (indexed_vectors s) []) -> usable N num inf (D q r)) ->
  exists c, k_smallest key (Z.to_nat np) (combine (zrange (n_list s)) (map (D q) (centroids s))) c /\
    answers key inf k (contents_of D s (map fst c) q) (search N D inf s np k b stale q).
Proof. intros T V N num key D inf s np k b stale q Hc. exact (search_ok N num key D inf Hc s np k b stale q). Qed.
Print Assumptions search_finds_the_nearest_probed.

(** With n_probe = n_list the search is exact: after any additions to a newly trained index the answer is the k nearest
    of all the rows added, under their numbers. *)
Theorem exhaustive_search_exact : forall (T V : Type) (N : arith T) (num : T -> Prop) (key : T -> R) (D : V -> V -> T) (inf : T)
    (row0 : V) (kmeans : Z -> Z -> list V) (b : nat) (stale : Z -> Z) (s0 s2 s3 : ivf) (X : list V) (calls : list call)
    (sts : list status) (k : Z) (q : V),
  compares (lt N) (le N) num key -> kmeans_contract kmeans -> 0 < o_n_list (opts s0) ->
  train kmeans (fst (set_training_data s0 X)) = (s2, Success) ->
  Forall (keeps_training (o_n_list (opts s0)) (o_metric (opts s0))) calls ->
  (forall r c, In r (added calls) -> In c (centroids s2) -> num (D r c)) ->
  run_all N D inf row0 kmeans b stale s2 calls = Some (s3, sts) ->
  o_n_probe (opts s3) = o_n_list (opts s3) -> 0 < k <= Z.of_nat (length (added calls)) -> (0 < b)%nat -> lt N inf inf = false ->
  (forall r, In r (centroids s3 ++ added calls) -> usable N num inf (D q r)) ->
  exists res, kneighbors N D inf s3 k b stale q = Some (Success, res) /\
    k_smallest key (Z.to_nat k) (distances D row0 q (added calls)) res /\ ascending key res.
Proof.
  intros T V N num key D inf row0 kmeans b stale s0 s2 s3 X calls sts k q Hc Hk Hnl Ht Hcalls Hn Hr Hp Hkk Hb Hinf Hu.
  destruct (train_ok N D row0 kmeans s0 X s2 Ht) as (Hi & n & En).
  destruct (run_ok N D inf row0 kmeans b stale calls s2 _ _ _ [] Hi Hcalls) as (_ & G).
  specialize (G _ _ Hr). simpl in G.
  assert (Hcs : length (centroids s2) = Z.to_nat (o_n_list (opts s0))) by (rewrite En; apply Hk).
  pose proof (index_holds N num key D row0 Hc s3 _ _ _ _ G Hnl Hcs Hn) as Hh.
  pose proof (index_sizes N D row0 s3 _ _ _ _ G Hcs) as Hs.
  pose proof G as (G1 & G2 & G3 & G4 & G5 & G6 & G7 & G8 & G9 & G10).
  assert (Ha : data_is_added s3 = true).
  { destruct (data_is_added s3); auto. destruct (G9 eq_refl) as (E & _). rewrite E in Hkk. simpl in Hkk. lia. }
  eexists. split.
  - unfold kneighbors, options_agree. rewrite G1, Ha, G2, G3, G4, G5, !Z.eqb_refl, G7, G8, Nat.ltb_irrefl. cbn [negb andb].
    destruct (Z.leb_spec k 0); [lia|]. destruct (Z.ltb_spec (Z.of_nat (length (added calls))) k); [lia|].
    rewrite Hp, G2, Z.ltb_irrefl. reflexivity.
  - destruct (search_ok N num key D inf Hc s3 (n_list s3) k b stale q Hs) as (c & C1 & C2); auto; try lia.
    + intros c Hin. apply Hu. apply in_or_app; auto.
    + intros j r Hj Hin. apply Hu. apply in_or_app. right. rewrite G4 in Hj. destruct (G10 j Hj) as (_ & E & _). rewrite E in Hin.
      apply in_map_iff in Hin as (i & <- & Hin). unfold local_indices in Hin. apply filter_In in Hin as (Hin & _).
      apply in_seq in Hin. apply nth_In. lia.
    + rewrite <- G4. apply (answers_full key inf).
      * unfold distances. rewrite map_length, seq_length. lia.
      * eapply answers_perm; [|exact C2]. apply (contents_all key D row0 s3 (added calls) q c Hh); auto.
        destruct Hs as (_ & Hs & _). exact Hs.
Qed.
Print Assumptions exhaustive_search_exact.

(** the two lists of before: one probed, then both *)
Example search_case :
  let o p := Options 2 p 1 1 0 in
  let s2 p := fst (train ends (fst (set_training_data (fresh (o p)) [1; 9; 4]))) in
  let answer p := match run_all arithZ line (2 ^ 62) 0 ends 2 (fun _ => 0) (s2 p) [Add [1; 9; 4]; Add [11; 2]] with
                  | Some (s, _) => kneighbors arithZ line (2 ^ 62) s 3 2 (fun _ => 0) 6 | None => None end in
  answer 1 = Some (Success, [(1, 9); (3, 25); (-1, 2 ^ 62)]) /\ answer 2 = Some (Success, [(2, 4); (1, 9); (4, 16)]) /\
  usable arithZ any (2 ^ 62) (line 6 11).
Proof. vm_compute. repeat split; reflexivity. Qed.

(** C155.  As long as no call of train fails, no call accesses a list that does not exist.  Missing: calls after a
    failed training, see the refutation. *)
Theorem index_in_bounds_partial : forall (T V : Type) (N : arith T) (D : V -> V -> T) (inf : T) (row0 : V)
    (kmeans : Z -> Z -> list V) (b : nat) (stale : Z -> Z) (o : options) (calls : list call),
  (forall before after s sts, calls = before ++ after ->
     run_all N D inf row0 kmeans b stale (fresh o) before = Some (s, sts) -> ~ In Invalid_dimension sts) ->
  exists s sts, run_all N D inf row0 kmeans b stale (fresh o) calls = Some (s, sts).
Proof.
  intros T V N D inf row0 kmeans b stale o calls H. apply runs_in_bounds; auto. intros E. discriminate.
Qed.
Print Assumptions index_in_bounds_partial.

(** a session with refused calls, none of them a failed training *)
Example in_bounds_case : match run_all arithZ line (2 ^ 62) 0 ends 2 (fun _ => 0) (fresh (Options 1 1 1 1 0))
    [Train; Add [3]; Set_data [1; 2]; Train; Search 1 0; Add [5]; Set_options (Options 2 1 1 1 0); Add [6]; Train; Add [6]; Search 0 1] with
  | Some (_, sts) => sts = [No_data; No_data; Success; Success; No_data; Success; Success; Option_locked; Success; Success; Success]
  | None => False end.
Proof. vm_compute. reflexivity. Qed.

(** A training refused because n_list exceeds the number of rows stores the new n_list and leaves the handle trained: the
    next addition and the next search pass every check and index lists that were never allocated. *)
Theorem failed_training_refuted : exists (o o' : options) (X : list Z) (s : ivf),
  run_all arithZ line (2 ^ 62) 0 ends 2 (fun _ => 0) (fresh o) [Set_data X; Train; Add X; Set_options o'; Train] =
    Some (s, [Success; Success; Success; Success; Invalid_dimension]) /\
  add_rows arithZ line 0 s X = None /\ kneighbors arithZ line (2 ^ 62) s 1 2 (fun _ => 0) 5 = None.
Proof.
  exists (Options 1 1 1 1 0), (Options 5 1 1 1 0), [5; 7]. eexists. split; [vm_compute; reflexivity|].
  split; vm_compute; reflexivity.
Qed.
Print Assumptions failed_training_refuted.

(** C156.  The first training on a set of data gives k-means the share of the rows that "train fraction" asks for, at
    least one row for every list.  Missing: a second training, see the refutations. *)
Theorem training_rows_partial : forall (V : Type) (kmeans : Z -> Z -> list V) (s0 s2 : ivf) (X : list V),
  (o_fraction (opts s0) <= 1)%Q ->
  train kmeans (fst (set_training_data s0 X)) = (s2, Success) ->
  n_samples_train s2 = share (Z.of_nat (length X)) (o_fraction (opts s0)) (o_n_list (opts s0)) /\
  n_list s2 <= n_samples_train s2 /\ centroids s2 = kmeans (n_samples_train s2) (n_list s2).
Proof.
  intros V kmeans s0 s2 X Hf. unfold train, set_training_data. cbn.
  destruct (Z.ltb_spec (Z.of_nat (length X)) (o_n_list (opts s0))); intros E; inversion E; subst; clear E. cbn.
  set (n := Z.of_nat (length X)) in *. set (f := o_fraction (opts s0)) in *.
  assert (Hn : 0 <= n) by lia.
  assert (Hle : Qfloor (inject_Z n * f) <= n).
  { rewrite <- (Qfloor_Z n) at 2. apply Qfloor_resp_le. rewrite <- (Qmult_1_r (inject_Z n)) at 2.
    rewrite !(Qmult_comm (inject_Z n)). apply Qmult_le_compat_r; auto. change 0%Q with (inject_Z 0). now rewrite <- Zle_Qle. }
  unfold rows_for_training, share. destruct (Qle_bool 1 f) eqn:E1.
  - apply Qle_bool_iff in E1. assert (Ef : (f == 1)%Q) by (apply Qle_antisym; auto).
    assert (E2 : Qfloor (inject_Z n * f) = n) by (rewrite Ef, Qmult_1_r; apply Qfloor_Z).
    rewrite E2. split; [lia|]. split; [lia|reflexivity].
  - split; [lia|]. split; [lia|reflexivity].
Qed.
Print Assumptions training_rows_partial.
Example training_rows_case : let r := train ends (fst (set_training_data (fresh (Options 2 1 1 (1 # 2) 0)) [1; 9; 4; 6; 2; 8; 3])) in
  snd r = Success /\ n_samples_train (fst r) = 3 /\ share 7 (1 # 2) 2 = 3.
Proof. vm_compute. repeat split; reflexivity. Qed.

(** Every further training takes its share of what the last one used: half of 8 rows, then half of 4. *)
Theorem training_rows_refuted : exists (o : options) (X : list Z) (s : ivf),
  run_all arithZ line (2 ^ 62) 0 ends 2 (fun _ => 0) (fresh o) [Set_data X; Train; Train] = Some (s, [Success; Success; Success]) /\
  n_samples_train s = 2 /\ share (Z.of_nat (length X)) (o_fraction o) (o_n_list o) = 4.
Proof.
  exists (Options 1 1 1 (1 # 2) 0), [1; 2; 3; 4; 5; 6; 7; 8]. eexists. split; [vm_compute; reflexivity|].
  split; vm_compute; reflexivity.
Qed.
Print Assumptions training_rows_refuted.

(** With the fraction set back to 1 and a larger n_list k-means is asked for more clusters than the rows it is given. *)
Theorem clusters_within_rows_refuted : exists (o o' : options) (X : list Z) (s : ivf),
  run_all arithZ line (2 ^ 62) 0 ends 2 (fun _ => 0) (fresh o) [Set_data X; Train; Set_options o'; Train] =
    Some (s, [Success; Success; Success; Success]) /\
  o_fraction o' = 1%Q /\ n_list s <= Z.of_nat (length X) /\ n_samples_train s < n_list s.
Proof.
  exists (Options 1 1 1 (1 # 2) 0), (Options 6 1 1 1 0), [1; 2; 3; 4; 5; 6; 7; 8]. eexists. split; [vm_compute; reflexivity|].
  split; [reflexivity|]. split; vm_compute; [discriminate|reflexivity].
Qed.
Print Assumptions clusters_within_rows_refuted.
