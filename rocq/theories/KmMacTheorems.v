(** k-means with MacQueen's algorithm. *)
From Coq Require Import ZArith Reals List Bool Lia Lra Permutation.
From Flocq Require Import BinarySingleNaN.
From Verif Require Import Base Par F64 FloatOrder NnModel RealArith KmModel KmMacModel KmSpec KmKernelProofs KmLloydProofs KmCostProofs
  KmLoopProofs KmAnyProofs KmMacProofs KmTheorems KmElkanTheorems.
Import ListNotations.
Local Open Scope R_scope.

(** ** Labels, in any arithmetic *)
Theorem km_macqueen_labels_in_range : forall {T} (N : arith T) prod lange isfin bs k nf X mode tol max_iter C,
  k <> 0%nat -> bs <> 0%nat -> length C = k ->
  match macqueen N prod lange isfin bs k nf X mode tol max_iter C with
  | EmptyCluster => mode = Error
  | Finished _ ls _ _ => length ls = length X /\ forall l, In l ls -> (l < k)%nat
  end.
Proof. intros T N prod lange isfin bs k nf X mode tol max_iter C K B L. exact (macqueen_range N prod lange isfin bs k nf X mode tol K max_iter C B L). Qed.
Print Assumptions km_macqueen_labels_in_range.

(** ** A run, in exact arithmetic *)
Section Exact.
Variables (bs k nf : nat) (X : list (list R)) (prod : list R -> list R -> R) (lange : list (list R) -> R) (isfin : R -> bool).
Variables (mode : empties) (tol : R).
Hypothesis k_pos : k <> 0%nat.
Hypothesis bs_pos : bs <> 0%nat.
Hypothesis samples : table nf X.
Hypothesis gemm : gemm_contract nf prod.
Hypothesis finite : forall r, isfin r = true.
Notation fit := (macqueen arithR prod lange isfin bs k nf X mode tol).
Notation first_labels C := (start_labels arithR prod bs X C).

(** The centres, updated one sample at a time, are means of a clustering, and of the returned one if the labels have stopped
    changing; clusters may be split. *)
Theorem km_macqueen_centres_are_means : forall max_iter C, centres k nf C ->
  match fit max_iter C with
  | EmptyCluster => mode = Error
  | Finished C' ls it conv =>
      centres k nf C' /\
      (exists ls0, length ls0 = length X /\ (forall l, In l ls0 -> (l < k)%nat) /\ C' = means k nf ls0 X) /\
      (conv = 2%nat -> C' = means k nf ls X)
  end.
Proof.
  intros max_iter C SC.
  pose proof (macqueen_ok bs k nf X prod lange isfin mode tol k_pos bs_pos samples gemm finite max_iter C SC) as H.
  destruct (fit max_iter C); [exact H|]. destruct H as [H1 [H2 [[ls0 [[V1 V2] E]] [H4 _]]]]. split; [exact H1|]. split; [|exact H4].
  exists ls0. auto.
Qed.
(** If the first centres have the norms of the initial centres, the labels are those of nearest returned centres and the sum
    of squares is not larger than for the first clusters with their means or any other centres. *)
Theorem km_macqueen_result_partial : forall max_iter C, centres k nf C ->
  map (square_norm arithR) (means k nf (first_labels C) X) = map (square_norm arithR) C ->
  match fit max_iter C with
  | EmptyCluster => mode = Error
  | Finished C' ls it conv => nearest_labels X C' ls /\ forall C0, centres k nf C0 -> cost X C' ls <= cost X C0 (first_labels C)
  end.
Proof.
  intros max_iter C SC E.
  pose proof (macqueen_ok bs k nf X prod lange isfin mode tol k_pos bs_pos samples gemm finite max_iter C SC) as H.
  pose proof (start_good bs k nf X prod k_pos bs_pos samples gemm C (proj1 SC)) as G.
  destruct (fit max_iter C) as [|C1 ls it conv]; [exact H|]. destruct H as [_ [_ [_ [_ H]]]].
  destruct H as [H1 H2]; [unfold norms_ok; rewrite (g_C k nf X _ G); symmetry; exact E|]. split; [exact H1|].
  intros C0 SC0. apply Rle_trans with (1 := H2). unfold pot'. destruct (g_ls k nf X _ G) as [L V].
  apply (means_minimise k nf 1 X); auto.
Qed.
Theorem km_macqueen_converges_partial : forall max_iter C, mode <> Split -> centres k nf C ->
  map (square_norm arithR) (means k nf (first_labels C) X) = map (square_norm arithR) C -> (k ^ length X + 2 <= max_iter)%nat ->
  match fit max_iter C with EmptyCluster => mode = Error | Finished _ _ _ conv => conv <> O end.
Proof. exact (macqueen_converges bs k nf X prod lange isfin mode tol k_pos bs_pos samples gemm finite). Qed.
End Exact.
Print Assumptions km_macqueen_centres_are_means.
Print Assumptions km_macqueen_result_partial.
Print Assumptions km_macqueen_converges_partial.
(** the hypotheses can be met *)
Example km_macqueen_exact_case :
  let X := [[0]; [2]; [6]; [8]] in let C := [[1]; [7]] in
  table 1 X /\ gemm_contract 1 (fun x c => - 2 * dot x c) /\ centres 2 1 C /\
  start_labels arithR (fun x c => - 2 * dot x c) 1 X C = [0; 0; 1; 1]%nat /\
  map (square_norm arithR) (means 2 1 [0; 0; 1; 1]%nat X) = map (square_norm arithR) C.
Proof.
  cbv zeta. split; [intros x Hx; repeat destruct Hx as [<-|Hx]; [reflexivity..|destruct Hx]|].
  split; [intros x c _ _; reflexivity|].
  split; [split; [reflexivity|]; intros x Hx; repeat destruct Hx as [<-|Hx]; [reflexivity..|destruct Hx]|].
  split.
  - cbn. unfold Rltb. repeat (match goal with |- context [Rlt_dec ?a ?b] => destruct (Rlt_dec a b) as [?H|?H]; cbn in *; unfold zero in *; cbn in *; try lra end).
    reflexivity.
  - cbn. unfold mean, rsum. cbn. repeat f_equal; lra.
Qed.

(** ** Double precision *)
Definition macqueen64 (k nf : nat) (X : list (list f64)) (mode : empties) (tol : f64) (max_iter : nat) (C : list (list f64)) :=
  macqueen (arith64 pw0) prod64 (frobenius (arith64 pw0)) is_finite 256 k nf X mode tol max_iter C.
(** The run ends because no label changes, with the centres 0 and 11, and the sample 3 belongs to the second: the distances are
    computed with the norms of the initial centres 0 and 2, of which the second is used although the centre has moved. *)
Theorem km_macqueen_nearest_refuted : let X := col [13; 0; 17; 3]%Z in
  start_labels (arith64 pw0) prod64 256 X (col [0; 2]%Z) = [1; 0; 1; 1]%nat /\
  match macqueen64 2 1 X Ignore (n64 0) 10 (col [0; 2]%Z) with
  | Finished C' ls it conv => (it, conv) = (2, 2)%nat /\ map (map B2SF) C' = map (map B2SF) (col [0; 11]%Z) /\
                        ls = [1; 0; 1; 1]%nat /\ predict64 C' X = [1; 0; 1; 0]%nat
  | EmptyCluster => False
  end.
Proof. vm_compute. auto. Qed.
Print Assumptions km_macqueen_nearest_refuted.
(** The first labels are not those of nearest centres: the samples 5, 7 and 8 are nearer to 15 than to 17. *)
Theorem km_macqueen_first_labels_refuted : let X := col [18; 5; 7; 8]%Z in let C := col [15; 17]%Z in
  start_labels (arith64 pw0) prod64 256 X C = [1; 0; 1; 1]%nat /\ predict64 C X = [1; 0; 0; 0]%nat.
Proof. vm_compute. auto. Qed.
Print Assumptions km_macqueen_first_labels_refuted.
Example km_macqueen_case :
  match macqueen64 2 1 (col [0; 2; 6; 8]%Z) Error (n64 0) 10 (col [1; 7]%Z) with
  | Finished C' ls it 2%nat => ls = [0; 0; 1; 1]%nat /\ map (map B2SF) C' = map (map B2SF) (col [1; 7]%Z)
  | _ => False
  end.
Proof. vm_compute. auto. Qed.
