(** k-means with Elkan's algorithm; blocks of samples and threads. *)
From Coq Require Import ZArith Reals List Bool Lia Lra Permutation.
From Flocq Require Import BinarySingleNaN.
From Verif Require Import Base Par F64 FloatOrder NnModel RealArith KmModel KmElkanModel KmSpec KmKernelProofs KmLloydProofs KmCostProofs
  KmLoopProofs KmAnyProofs KmElkanProofs KmBlockProofs KmTheorems.
Import ListNotations.
Local Open Scope R_scope.

(** ** Blocks *)
(** Lloyd's algorithm: every sample is treated exactly once, whatever blocks the threads are given, in any order. *)
Theorem km_lloyd_blocks : forall n bs ts, (0 <= n)%Z -> (0 < bs)%Z -> every_block_once (fst (scheme n bs)) ts ->
  every_sample_once n (lloyd_team_ranges n bs ts).
Proof. intros n bs ts A B. exact (lloyd_once n bs A B ts). Qed.
Print Assumptions km_lloyd_blocks.
(** Elkan's algorithm and predict: if every thread is given its blocks in increasing order. *)
Theorem km_elkan_blocks_partial : forall n bs ts, (0 <= n)%Z -> (0 < bs)%Z -> every_block_once (fst (scheme n bs)) ts ->
  (forall l, In l ts -> increasing l) -> every_sample_once n (team_ranges n bs ts).
Proof. intros n bs ts A B. exact (elkan_once n bs A B ts). Qed.
Print Assumptions km_elkan_blocks_partial.
(** schedule(dynamic) without "monotonic" does not promise this; a thread that has had the short last block treats only the
    beginning of the others. *)
Theorem km_elkan_blocks_refuted : exists n bs ts, (0 <= n)%Z /\ (0 < bs)%Z /\ every_block_once (fst (scheme n bs)) ts /\
  team_ranges n bs ts = [(0, 256); (512, 3); (256, 3)]%Z /\ ~ every_sample_once n (team_ranges n bs ts).
Proof.
  exists 515%Z, 256%Z, [[0]; [2; 1]]%Z. split; [lia|]. split; [lia|].
  split; [cbn; apply perm_skip, perm_swap|]. split; [reflexivity|].
  intros H. apply Permutation_length in H. vm_compute in H. discriminate.
Qed.
Print Assumptions km_elkan_blocks_refuted.
Example km_blocks_case : every_block_once (fst (scheme 515 256)) [[0; 2]; [1]]%Z /\ increasing [0; 2]%Z /\ increasing [1]%Z /\
  team_ranges 515 256 [[0; 2]; [1]]%Z = [(0, 256); (512, 3); (256, 256)]%Z.
Proof.
  split; [cbn; apply perm_skip, perm_swap|]. cbn. repeat split; auto; intros y H; repeat destruct H as [<-|H]; try lia; destruct H.
Qed.

(** ** Distances, in exact arithmetic: all kernels give the squared Euclidean distance *)
Theorem km_elkan_reduction : forall fma hsum w x y, (forall a b s, fma a b s = a * b + s) -> (forall l, hsum l = rsum l) ->
  length x = length y -> reduce_kt arithR fma hsum w x y = sqdist x y /\ reduce_scalar arithR x y = sqdist x y.
Proof. intros fma hsum w x y F H L. split; [exact (reduce_kt_ok fma hsum F H w x y L)|exact (reduce_scalar_ok x y)]. Qed.
Print Assumptions km_elkan_reduction.

(** ** A run, in exact arithmetic *)
Section Exact.
Variables (k nf bs : nat) (X : list (list R)) (reduce : list R -> list R -> R) (gd : list (list R) -> nat -> nat -> R).
Variables (lange : list (list R) -> R) (isfin : R -> bool) (schedule : nat -> team) (mode : empties) (tol : R).
Hypothesis k_pos : k <> 0%nat.
Hypothesis bs_pos : bs <> 0%nat.
Hypothesis samples : table nf X.
Hypothesis reduction : forall x c, length x = nf -> length c = nf -> reduce x c = sqdist x c.
Hypothesis gemm_distance : forall C i j, centres k nf C -> (i < k)%nat -> (j < k)%nat -> gd C i j = edist (nth i C []) (nth j C []).
Hypothesis teams : forall i, good_team (length X) bs (schedule i).
Hypothesis no_split : mode <> Split.
Notation fit := (elkan arithR reduce gd lange isfin bs schedule k nf X mode tol).

(** Clusters are not split: the bounds skip no nearer centre.  The labels are those of nearest centres; the centres are
    means of a clustering, and of the returned one if the labels have stopped changing. *)
Theorem km_elkan_result_partial : forall max_iter C, (max_iter <> 0)%nat -> centres k nf C ->
  match fit max_iter C with
  | EmptyCluster => mode = Error
  | Finished C' ls it conv =>
      centres k nf C' /\ nearest_labels X C' ls /\
      (exists ls0, length ls0 = length X /\ (forall l, In l ls0 -> (l < k)%nat) /\ C' = means k nf ls0 X) /\
      (conv = 2%nat -> C' = means k nf ls X)
  end.
Proof.
  intros max_iter C M SC.
  pose proof (elkan_result k nf bs X reduce gd lange isfin schedule mode tol k_pos bs_pos samples reduction gemm_distance teams no_split
    max_iter C M SC) as H.
  destruct (fit max_iter C); [exact H|]. destruct H as [H1 [H2 [[ls0 [[V1 V2] E]] H4]]]. split; [exact H1|]. split; [exact H2|].
  split; [|exact H4]. exists ls0. auto.
Qed.
Theorem km_elkan_converges_partial : forall max_iter C, centres k nf C -> (k ^ length X + 2 <= max_iter)%nat ->
  match fit max_iter C with EmptyCluster => mode = Error | Finished _ _ it conv => conv <> O end.
Proof. exact (elkan_converges k nf bs X reduce gd lange isfin schedule mode tol k_pos bs_pos samples reduction gemm_distance teams no_split). Qed.
(** The sum of squares is not larger than for the initial centres with any labels. *)
Theorem km_elkan_inertia_partial : forall max_iter C C' ls it conv, centres k nf C -> fit max_iter C = Finished C' ls it conv ->
  forall l0, length l0 = length X -> (forall l, In l l0 -> (l < k)%nat) -> cost X C' ls <= cost X C l0.
Proof.
  intros max_iter C C' ls it conv SC E l0 L H.
  exact (elkan_inertia k nf bs X reduce gd lange isfin schedule mode tol k_pos bs_pos samples reduction gemm_distance teams no_split
    max_iter C C' ls it conv SC E l0 (conj L H)).
Qed.
(** If no sample has two nearest centres the labels are those predict gives with the returned centres. *)
Theorem km_elkan_labels_are_predicted_partial : forall w prod max_iter C C' ls it conv, w <> 0%nat -> gemm_contract nf prod ->
  (max_iter <> 0)%nat -> centres k nf C -> fit max_iter C = Finished C' ls it conv ->
  (forall x a b, In x X -> (a < k)%nat -> (b < k)%nat -> a <> b ->
     (forall j, (j < k)%nat -> sqdist x (nth a C' []) <= sqdist x (nth j C' [])) -> sqdist x (nth a C' []) < sqdist x (nth b C' [])) ->
  ls = labels arithR prod (pick arithR Rltb w) C' X.
Proof.
  intros w prod max_iter C C' ls it conv W P M SC E U. pose proof (km_elkan_result_partial max_iter C M SC) as H. rewrite E in H.
  destruct H as [SC' [[L N] _]]. destruct (labels_nearest k nf w X prod k_pos W samples P C' SC') as [L' N'].
  apply (nth_ext _ _ O O); [congruence|]. intros i Hi. rewrite L in Hi. destruct (N i Hi) as [A1 A2]. destruct (N' i Hi) as [B1 B2].
  destruct SC' as [LC TC]. rewrite LC in *.
  destruct (Nat.eq_dec (nth i ls O) (nth i (labels arithR prod (pick arithR Rltb w) C' X) O)) as [Q|Q]; [exact Q|].
  pose proof (U _ _ _ (nth_In X [] Hi) A1 B1 Q A2). pose proof (B2 _ A1). lra.
Qed.
End Exact.
Print Assumptions km_elkan_result_partial.
Print Assumptions km_elkan_converges_partial.
Print Assumptions km_elkan_inertia_partial.
Print Assumptions km_elkan_labels_are_predicted_partial.
(** the hypotheses can be met *)
Example km_elkan_exact_case :
  let X := [[0; 0]; [1; 0]; [5; 5]] in
  table 2 X /\ centres 2 2 [[0; 0]; [5; 5]] /\ good_team 3 2 (Threads [[1%nat]; []; [0%nat]]) /\
  (forall x c, length x = 2%nat -> length c = 2%nat -> reduce_scalar arithR x c = sqdist x c) /\
  (forall C i j, centres 2 2 C -> (i < 2)%nat -> (j < 2)%nat ->
     (fun C i j => edist (nth i C []) (nth j C [])) C i j = edist (nth i C []) (nth j C [])).
Proof.
  cbv zeta. split; [intros x Hx; repeat destruct Hx as [<-|Hx]; [reflexivity..|destruct Hx]|].
  split; [split; [reflexivity|]; intros x Hx; repeat destruct Hx as [<-|Hx]; [reflexivity..|destruct Hx]|].
  split; [cbn; apply perm_swap|]. split; [intros x c _ _; exact (reduce_scalar_ok x c)|]. intros; reflexivity.
Qed.

(** ** Labels, in any arithmetic *)
(** With NaN and infinities too, and with splitting: every sample is given the label of a cluster. *)
Theorem km_elkan_labels_in_range : forall {T} (N : arith T) reduce gd lange isfin bs schedule k nf X mode tol max_iter C, k <> 0%nat ->
  match elkan N reduce gd lange isfin bs schedule k nf X mode tol max_iter C with
  | EmptyCluster => mode = Error
  | Finished _ ls _ _ => length ls = length X /\ forall l, In l ls -> (l < k)%nat
  end.
Proof. intros T N reduce gd lange isfin bs schedule k nf X mode tol max_iter C K. apply elkan_range. exact K. Qed.
Print Assumptions km_elkan_labels_in_range.

(** ** Double precision *)
Definition norm64 (c : list f64) : f64 := square_norm (arith64 pw0) c.
Definition gd64 (C : list (list f64)) (i j : nat) : f64 :=
  let v := f64_add (f64_add (norm64 (nth i C [])) (norm64 (nth j C []))) (prod64 (nth i C []) (nth j C [])) in
  f64_sqrt (if f64_lt v (n64 0) then n64 0 else v).
Definition elkan64 (k nf : nat) (X : list (list f64)) (mode : empties) (tol : f64) (max_iter : nat) (C : list (list f64)) :=
  elkan (arith64 pw0) (reduce_scalar (arith64 pw0)) gd64 (frobenius (arith64 pw0)) is_finite 256 (fun _ => OneThread) k nf X mode tol max_iter C.
Definition col (l : list Z) : list (list f64) := map (fun z => [n64 z]) l.
(** A sample with two nearest centres: the label is not the one predict gives. *)
Theorem km_elkan_labels_are_predicted_refuted : exists X C,
  match elkan64 2 1 X Ignore (n64 0) 10 C with
  | Finished C' ls _ 2%nat => ls = [0; 1; 1]%nat /\ map (map B2SF) C' = map (map B2SF) (col [0; 4]%Z) /\ predict64 C' X = [0; 0; 1]%nat
  | _ => False
  end.
Proof. exists (col [0; 2; 6]%Z), (col [-1; 4]%Z). vm_compute. auto. Qed.
Print Assumptions km_elkan_labels_are_predicted_refuted.
(** Splitting keeps the half distances of the centres before it: the run ends because no label has changed, and the first
    sample (12) is in the cluster of 9 although 13 is a centre. *)
Theorem km_elkan_split_refuted : let X := col [12; 25; 13; 7; 28; 8]%Z in
  match elkan64 3 1 X Split (n64 0) 10 (col [-8; -10; 27]%Z) with
  | Finished C' ls _ 2%nat => ls = [0; 1; 2; 0; 1; 0]%nat /\
      map (map B2SF) C' = map (map B2SF) [[n64 9]; [dy 53 1]; [n64 13]] /\ predict64 C' X = [2; 1; 2; 0; 1; 0]%nat
  | _ => False
  end.
Proof. vm_compute. auto. Qed.
Print Assumptions km_elkan_split_refuted.
(** a run with success: as with Lloyd's algorithm *)
Example km_elkan_case :
  match elkan64 2 1 (col [0; 1; 5; 6]%Z) Error (n64 0) 10 (col [0; 1]%Z) with
  | Finished C ls it conv => (ls, it, conv) = ([0; 0; 1; 1]%nat, 2%nat, 2%nat) /\ map (map B2SF) C = map (map B2SF) [[dy 1 1]; [dy 11 1]]
  | _ => False
  end.
Proof. vm_compute. auto. Qed.
