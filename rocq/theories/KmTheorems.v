(** k-means with Lloyd's algorithm. *)
From Coq Require Import ZArith Reals List Bool Lia Lra Permutation.
From Flocq Require Import BinarySingleNaN.
From Verif Require Import Par F64 FloatOrder NnModel RealArith KmModel KmSpec KmKernelProofs KmLloydProofs KmCostProofs KmLoopProofs KmAnyProofs.
Import ListNotations.
Local Open Scope R_scope.

(** ** The label of a sample, in double precision *)
(** Whatever the values and the padding are (NaN and infinities too), the label is that of a cluster and no vector is
    loaded from outside the row. *)
Theorem km_label_in_range : forall pw w vals rest, w <> O -> vals <> [] -> length rest = w ->
  (exists r, kernel_vector f64_lt w (length vals) (padded (arith64 pw) infinity vals rest) = Some r /\ (r < length vals)%nat) /\
  (exists r, kernel_scalar f64_lt vals = Some r /\ (r < length vals)%nat).
Proof. intros pw w vals rest W NE L. split; [exact (kernel_f64_range pw w vals rest W NE L)|exact (kernel_scalar_range f64_lt vals NE)]. Qed.
Print Assumptions km_label_in_range.

(** Without NaN the label is that of a smallest value, of several equal ones the one in the first lane. *)
Theorem km_label_smallest : forall pw w vals rest, w <> O -> vals <> [] -> length rest = w ->
  (forall x, In x vals -> is_nan x = false) -> (forall x, In x rest -> clean x) ->
  exists r, kernel_vector f64_lt w (length vals) (padded (arith64 pw) infinity vals rest) = Some r /\
            smallest_in_lanes w (map key vals) r.
Proof.
  intros pw w vals rest W NE L H1 H2. eexists. split; [exact (kernel_f64_pick pw w vals rest W NE L H1 H2)|].
  exact (pick_f64 pw w vals W NE H1).
Qed.
Print Assumptions km_label_smallest.
Theorem km_label_smallest_scalar : forall vals, vals <> [] -> (forall x, In x vals -> is_nan x = false) ->
  exists r, kernel_scalar f64_lt vals = Some r /\ smallest_in_lanes 1 (map key vals) r.
Proof.
  intros vals NE H. exists (pick (arith64 (fun x _ => x)) f64_lt 1 vals). split; [|exact (pick_f64 _ 1 vals (Nat.neq_succ_0 0) NE H)].
  exact (kernel_scalar_pick _ f64_lt (fun x => is_nan x = false) key (fun x y Hx Hy => f64_lt_key x y Hx Hy) vals NE H).
Qed.
Print Assumptions km_label_smallest_scalar.
(** One smallest value only: all processors give the same label. *)
Theorem km_label_same_on_all_cpus_partial : forall w w' vals r r', w <> O -> w' <> O ->
  (forall i j, (i < length vals)%nat -> (j < length vals)%nat -> nth i vals 0 = nth j vals 0 -> i = j) ->
  smallest_in_lanes w vals r -> smallest_in_lanes w' vals r' -> r = r'.
Proof.
  intros w w' vals r r' W W' U [L H] [L' H']. specialize (H r' L'). specialize (H' r L).
  destruct H as [H|[H _]]; [destruct H' as [H'|[H' _]]; [lra|apply U; auto]|apply U; auto].
Qed.
Print Assumptions km_label_same_on_all_cpus_partial.
Definition n64 (z : Z) : f64 := f64_of_Z z.
(** Equal distances to two centres: the label depends on the number of lanes. *)
Theorem km_label_same_on_all_cpus_refuted : exists vals : list f64,
  kernel_scalar f64_lt vals = Some 1%nat /\
  kernel_vector f64_lt 2 (length vals) (padded (arith64 (fun x _ => x)) infinity vals [n64 0; n64 0]) = Some 2%nat.
Proof. exists [n64 5; n64 1; n64 1]. vm_compute. auto. Qed.
Print Assumptions km_label_same_on_all_cpus_refuted.
(** The padding places of a handle that was used before may hold NaN or minus infinity; then a smallest value can be lost. *)
Theorem km_label_after_nan_refuted : exists (vals rest : list f64) r,
  length rest = 2%nat /\ (forall x, In x vals -> is_finite x = true) /\
  kernel_vector f64_lt 2 (length vals) (padded (arith64 (fun x _ => x)) infinity vals rest) = Some r /\
  exists j, f64_lt (nth j vals (n64 0)) (nth r vals (n64 0)) = true.
Proof.
  exists [n64 4; n64 1; n64 2], [B754_nan; n64 0], 2%nat. split; [reflexivity|]. split.
  - intros x Hx. repeat destruct Hx as [<-|Hx]; [reflexivity..|destruct Hx].
  - split; [vm_compute; reflexivity|]. exists 1%nat. vm_compute. reflexivity.
Qed.
Print Assumptions km_label_after_nan_refuted.
Example km_label_case :
  kernel_vector f64_lt 4 6 (padded (arith64 (fun x _ => x)) infinity (map n64 [9; 7; 3; 8; 3; 3]%Z) (map n64 [0; 1; 2; 3]%Z)) = Some 4%nat /\
  kernel_scalar f64_lt (map n64 [9; 7; 3; 8; 3; 3]%Z) = Some 2%nat.
Proof. vm_compute. auto. Qed.

(** ** A run, in exact arithmetic *)
Section Exact.
(** [w]: lanes of the kernel; [st], [bs], [schedule]: how the sums are formed and shared among threads *)
Variables (k nf w bs : nat) (X : list (list R)) (prod : list R -> list R -> R) (lange : list (list R) -> R) (isfin : R -> bool).
Variables (st : style) (schedule : nat -> team) (mode : empties) (tol : R).
Hypothesis k_pos : k <> 0%nat.
Hypothesis w_pos : w <> 0%nat.
Hypothesis bs_pos : bs <> 0%nat.
Hypothesis samples : table nf X.
Hypothesis gemm : gemm_contract nf prod.
Hypothesis teams : forall i, good_team (length X) bs (schedule i).
Notation predicted C := (labels arithR prod (pick arithR Rltb w) C X).
Notation fit := (lloyd arithR prod (pick arithR Rltb w) lange isfin st bs schedule k nf X mode tol).

(** The labels are those of nearest centres; of several nearest ones the first by lanes. *)
Theorem km_labels_nearest : forall C, centres k nf C -> nearest_labels X C (predicted C) /\
  forall i, (i < length X)%nat -> smallest_in_lanes w (map (sqdist (nth i X [])) C) (nth i (predicted C) O).
Proof.
  intros C SC. split; [exact (labels_nearest k nf w X prod k_pos w_pos samples gemm C SC)|].
  intros i Hi. unfold labels. rewrite (nth_map_in _ X []) by exact Hi.
  exact (label_smallest k nf w prod k_pos w_pos gemm C (nth i X []) SC (samples _ (nth_In X [] Hi))).
Qed.
(** The new centres are the means of the clusters, however the work is shared. *)
Theorem km_centres_are_means : forall t ls, good_team (length X) bs t -> length ls = length X -> (forall l, In l ls -> (l < k)%nat) ->
  new_centres arithR st bs t k nf ls X = means k nf ls X.
Proof. intros t ls G L H. apply new_centres_means; auto. Qed.
(** What is returned: nearest labels, which are those predict gives for the samples; centres that are means of a
    clustering, and of the returned one if the labels have stopped changing. *)
Theorem km_fit_result : forall max_iter C, (max_iter <> 0)%nat -> centres k nf C ->
  match fit max_iter C with
  | EmptyCluster => mode = Error
  | Finished C' ls it conv =>
      centres k nf C' /\ ls = predicted C' /\ nearest_labels X C' ls /\
      (exists ls0, length ls0 = length X /\ (forall l, In l ls0 -> (l < k)%nat) /\ C' = means k nf ls0 X) /\
      (conv = 2%nat -> C' = means k nf ls X)
  end.
Proof.
  intros max_iter C M SC.
  pose proof (loop_end k nf w bs X prod lange isfin st schedule mode tol k_pos w_pos bs_pos samples gemm teams max_iter 0 C []
    (conj SC (or_introl eq_refl)) ltac:(lia)) as H.
  unfold lloyd. destruct (lloyd_loop arithR prod (pick arithR Rltb w) lange isfin st bs schedule k nf X mode tol max_iter 0 C []); [exact H|].
  destruct H as [H1 [H2 [H3 [[ls0 [[V1 V2] E]] H5]]]]. split; [exact H1|]. split; [exact H2|]. split; [exact H3|].
  split; [|exact H5]. exists ls0. auto.
Qed.
(** The sum of squares is not larger than for the initial centres and does not grow with the number of iterations. *)
Theorem km_inertia_decreases : forall max_iter C C' ls it conv, centres k nf C -> fit max_iter C = Finished C' ls it conv ->
  inertia arithR X C' ls = cost X C' ls /\ cost X C' ls <= cost X C (predicted C).
Proof.
  intros max_iter C C' ls it conv SC E. split; [exact (inertia_cost nf X C' ls samples)|].
  pose proof (loop_cost k nf w bs X prod lange isfin st schedule mode tol k_pos w_pos bs_pos samples gemm teams max_iter 0 C [] SC) as H.
  unfold lloyd in E. rewrite E in H. exact H.
Qed.
Theorem km_more_iterations : forall max_iter C C1 l1 it1 c1 C2 l2 it2 c2, centres k nf C ->
  fit max_iter C = Finished C1 l1 it1 c1 -> fit (S max_iter) C = Finished C2 l2 it2 c2 -> cost X C2 l2 <= cost X C1 l1.
Proof.
  intros max_iter C C1 l1 it1 c1 C2 l2 it2 c2 SC E1 E2.
  pose proof (loop_more k nf w bs X prod lange isfin st schedule mode tol k_pos w_pos bs_pos samples gemm teams max_iter 0 C [] SC) as H.
  unfold lloyd in E1, E2. rewrite E1, E2 in H. exact H.
Qed.
(** Without splitting of clusters the run converges if it may take as many iterations as there are labellings, and two more. *)
Theorem km_fit_converges_partial : forall max_iter C, mode <> Split -> centres k nf C -> (k ^ length X + 2 <= max_iter)%nat ->
  match fit max_iter C with EmptyCluster => mode = Error | Finished _ _ _ conv => conv <> O end.
Proof. exact (lloyd_converges k nf w bs X prod lange isfin st schedule mode tol k_pos w_pos bs_pos samples gemm teams). Qed.
(** Splitting: afterwards no cluster is empty, the centres are means and the sum of squares has not grown. *)
Theorem km_split_fills : forall ls C' ls', length ls = length X -> (forall l, In l ls -> (l < k)%nat) ->
  split_empty arithR isfin k X (means k nf ls X) ls = (C', ls') ->
  length ls' = length X /\ C' = means k nf ls' X /\ cost X C' ls' <= cost X (means k nf ls X) ls /\
  ((forall r, isfin r = true) -> (k <= length X)%nat -> forall j, (j < k)%nat -> In j ls').
Proof.
  intros ls C' ls' L H E. destruct (split_empty_ok k nf X isfin samples ls (conj L H)) as [[V1 V2] [V3 V4]].
  pose proof (split_empty_cost k nf X isfin k_pos samples ls (conj L H)) as Q. rewrite E in *. cbn [fst snd] in *.
  split; [exact V1|]. split; [exact V3|]. split; [|exact V4]. unfold potential in Q. rewrite V3. exact Q.
Qed.
End Exact.
Print Assumptions km_labels_nearest.
Print Assumptions km_centres_are_means.
Print Assumptions km_fit_result.
Print Assumptions km_inertia_decreases.
Print Assumptions km_more_iterations.
Print Assumptions km_fit_converges_partial.
Print Assumptions km_split_fills.
(** the hypotheses can be met *)
Example km_exact_case :
  let X := [[0; 0]; [1; 0]; [5; 5]] in
  table 2 X /\ gemm_contract 2 (fun x c => - 2 * dot x c) /\ centres 2 2 [[0; 0]; [5; 5]] /\
  good_team 3 2 (Threads [[1%nat]; []; [0%nat]]) /\ means 2 2 [0; 0; 1]%nat X = [[1 / 2; 0]; [5; 5]].
Proof.
  cbv zeta. split; [intros x Hx; repeat destruct Hx as [<-|Hx]; [reflexivity..|destruct Hx]|].
  split; [intros x c _ _; reflexivity|].
  split; [split; [reflexivity|]; intros x Hx; repeat destruct Hx as [<-|Hx]; [reflexivity..|destruct Hx]|].
  split; [cbn; apply perm_swap|]. cbn. unfold mean, rsum. cbn. repeat f_equal; lra.
Qed.

(** ** The labels of the run and those of predict, in any arithmetic *)
(** One thread, or the same distribution of the blocks in all iterations; clusters are not split. *)
Theorem km_fit_labels_are_predicted_partial : forall {T} (N : arith T) prod kernel lange isfin st bs t k nf X mode tol max_iter C C' ls it conv,
  mode <> Split -> lloyd N prod kernel lange isfin st bs (fun _ => t) k nf X mode tol max_iter C = Finished C' ls it conv ->
  ls = labels N prod kernel C' X.
Proof. intros T N prod kernel lange isfin st bs t k nf X mode tol max_iter C C' ls it conv M E.
  exact (lloyd_predict N prod kernel lange isfin st bs t k nf X mode tol M max_iter C C' ls it conv E). Qed.
Print Assumptions km_fit_labels_are_predicted_partial.

Definition pw0 : f64 -> f64 -> f64 := fun x _ => x.
Definition prod64 (x c : list f64) : f64 :=
  f64_mul (n64 (-2)) (fold_left (fun s ab => f64_add s (f64_mul (fst ab) (snd ab))) (combine x c) (n64 0)).
Definition fit64 (schedule : nat -> team) (k nf bs : nat) (X : list (list f64)) (mode : empties) (tol : f64) (max_iter : nat) (C : list (list f64)) :=
  lloyd (arith64 pw0) prod64 (pick (arith64 pw0) f64_lt 1) (frobenius (arith64 pw0)) is_finite Plain bs schedule k nf X mode tol max_iter C.
Definition predict64 (C X : list (list f64)) : list nat := labels (arith64 pw0) prod64 (pick (arith64 pw0) f64_lt 1) C X.
(** [m] times 2 to the power [-e] *)
Definition dy (m e : Z) : f64 := f64_div (n64 m) (n64 (2 ^ e)).
Definition w_X : list (list f64) :=
  map (fun x => [x]) (repeat (dy 0x1ccccccccccccd 53) 128 ++ repeat (dy 0x14cccccccccccd 50) 128 ++
    repeat (dy 0x1999999999999a 55) 128 ++ repeat (dy 0x16000000000000 50) 128 ++
    [dy 0x13333333333334 53; dy 0x15333333333333 50; dy 0x17a324af920b8b 51]).
Definition w_schedule (i : nat) : team := Threads (if Nat.ltb i 2 then [[0]; [1; 2]] else [[0; 2]; [1]])%nat.
(** 515 samples in three blocks of 256; two threads which share the blocks differently in the third iteration: the run
    ends because no label has changed, with a label other than the one predict gives. *)
Theorem km_fit_labels_are_predicted_refuted : exists X C schedule,
  (forall i, good_team (length X) 256 (schedule i)) /\
  match fit64 schedule 2 1 256 X Ignore (n64 0) 10 C with
  | Finished C' ls _ 2%nat => same_labels ls (predict64 C' X) = false
  | _ => False
  end.
Proof.
  exists w_X, [[n64 1]; [n64 5]], w_schedule. split.
  - intros i. unfold w_schedule. destruct (Nat.ltb i 2).
    + apply Permutation_refl.
    + cbn. apply perm_skip, perm_swap.
  - vm_compute. reflexivity.
Qed.
Print Assumptions km_fit_labels_are_predicted_refuted.

(** ** Empty clusters, in double precision *)
(** Option "error": a run ends with success and an empty cluster (the labels for the last centres are not looked at). *)
Theorem km_error_on_empty_refuted : exists X C, result_has (fun C' ls => length C' = 3%nat /\ ~ In 1%nat ls)
  (fit64 (fun _ => OneThread) 3 1 256 X Error (n64 1) 10 C).
Proof.
  exists (map (fun z => [n64 z]) [9; 7; 2; 3]%Z), (map (fun z => [n64 z]) [12; 6; 0]%Z). vm_compute. split; auto.
  intros H. repeat (destruct H as [H|H]; [discriminate|]). destruct H.
Qed.
Print Assumptions km_error_on_empty_refuted.
(** Option "split": two equal samples and two clusters never converge, and one cluster stays empty. *)
Lemma split_forever (X := [[n64 0]; [n64 0]]) (C := [[n64 0]; [n64 0]]) : forall fuel iter prev,
  lloyd_loop (arith64 pw0) prod64 (pick (arith64 pw0) f64_lt 1) (frobenius (arith64 pw0)) is_finite Plain 256
    (fun _ => OneThread) 2 1 X Split (n64 0) fuel iter C prev = Finished C [0; 0]%nat (iter + fuel) 0.
Proof.
  intros fuel. induction fuel as [|fuel IH]; intros iter prev.
  - cbn [lloyd_loop]. rewrite Nat.add_0_r. reflexivity.
  - cbn [lloyd_loop]. set (ls := labels _ _ _ _ _). assert (E : ls = [0; 0]%nat) by (vm_compute; reflexivity). rewrite E. clear E ls.
    set (C' := new_centres _ _ _ _ _ _ _ _). assert (E : C' = C) by (vm_compute; reflexivity). rewrite E. clear E C'.
    change (any_empty 2 [0; 0]%nat) with true. cbv iota.
    set (r := split_empty _ _ _ _ _ _). assert (E : r = (C, [1; 0]%nat)) by (vm_compute; reflexivity). rewrite E. clear E r.
    rewrite IH. f_equal. lia.
Qed.
Theorem km_split_refuted : exists X C, forall max_iter,
  fit64 (fun _ => OneThread) 2 1 256 X Split (n64 0) max_iter C = Finished C [0; 0]%nat max_iter 0.
Proof. exists [[n64 0]; [n64 0]], [[n64 0]; [n64 0]]. intros max_iter. exact (split_forever max_iter 0 []). Qed.
Print Assumptions km_split_refuted.
(** a run with success *)
Example km_fit_case :
  match fit64 (fun _ => Threads [[1]; [0]])%nat 2 1 2 (map (fun z => [n64 z]) [0; 1; 5; 6]%Z) Error (n64 0) 10 [[n64 0]; [n64 1]] with
  | Finished C ls it conv => (ls, it, conv) = ([0; 0; 1; 1]%nat, 2%nat, 2%nat) /\ map (map B2SF) C = map (map B2SF) [[dy 1 1]; [dy 11 1]]
  | _ => False
  end.
Proof. vm_compute. auto. Qed.
