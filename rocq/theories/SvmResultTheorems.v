(** Theorems about the results gathered by da_svm_compute. *)
From Coq Require Import QArith Qabs List Bool Arith Lia.
From Verif Require Import SvmModel SvmClassModel SvmResultModel SvmResultSpec SvmResultProofs.
Import ListNotations.
Local Open Scope nat_scope.

(** The first compute on a handle puts the support vectors class after class, in
    increasing order, and each coefficient in the row of the opposing class. *)
Theorem results_laid_out D meps al : labels_ok D ->
  let r := fst (gather_results D meps al fresh) in
  exists sup : nat -> list nat,
    (forall c, supporting D meps al c (sup c)) /\
    (forall c, n_sv_per_class r c = length (sup c)) /\
    n_sv r = column_of sup (classes D) 0 /\
    forall c q, c < classes D -> q < length (sup c) ->
      holds (index_writes r) (column_of sup c q) (nth q (sup c) 0) /\
      forall o, o < classes D -> o <> c ->
        holds (coefficient_writes r) (row_of c o, column_of sup c q)
          (against al c o (nth q (sup c) 0)).
Proof.
  intros L r. exists (of_class D meps al).
  pose proof (fun c => starting_column (of_class D meps al) (n_sv_per_class r) c (fun k => per_class_length D meps al k)) as St.
  split; [intro c; apply of_class_supporting|].
  split; [intro c; apply per_class_length|].
  split.
  - transitivity (starting (n_sv_per_class r) (classes D)).
    + apply total, L.
    + apply St.
  - intros c q Hc Hq.
    assert (N : nth_error (of_class D meps al c) q = Some (nth q (of_class D meps al c) 0)).
    { apply nth_error_nth'. exact Hq. }
    rewrite column_shift, <- St.
    split.
    + apply index_holds, N.
    + intros o Ho Ne. apply coefficient_holds; auto.
Qed.
Print Assumptions results_laid_out.

(** Nothing is written outside the arrays, which have room for n_sv columns and
    one row less than there are classes. *)
Theorem results_in_bounds D meps al : labels_ok D ->
  let r := fst (gather_results D meps al fresh) in
  (forall k s, In (k, s) (index_writes r) -> k < n_sv r /\ s < samples D) /\
  (forall i k v, In (i, k, v) (coefficient_writes r) -> i < classes D - 1 /\ k < n_sv r).
Proof.
  intros L r. split.
  - intros k s H. split; [exact (index_bound D meps al L k s H)|].
    apply index_in in H. destruct H as (q & N & _). apply (of_class_label _ _ _ _ _ _ N).
  - intros i k v H. exact (coefficient_bound D meps al L i k v H).
Qed.
Print Assumptions results_in_bounds.

(** Three classes; sample 0 supports no classifier. *)
Definition four_samples : labelled := Labelled 4 3 (fun s => nth s [2; 0; 1; 2] 0).
Definition some_coefficients : coefficients := fun ij s =>
  if s =? 0 then 0%Q else if label four_samples s =? fst ij then 1%Q else (-(1#1))%Q.
Example four_samples_laid_out :
  let r := fst (gather_results four_samples (1 # 1000) some_coefficients fresh) in
  labels_ok four_samples /\ n_sv r = 3 /\ map (n_sv_per_class r) [0; 1; 2] = [1; 1; 1] /\
  index_writes r = [(0, 1); (1, 2); (2, 3)] /\ length (coefficient_writes r) = 6.
Proof.
  split; [|vm_compute; repeat split; reflexivity].
  intros s H. simpl in H. destruct s as [|[|[|[|s]]]]; simpl; lia.
Qed.

(** A second compute with the same coefficients writes behind the end of both
    arrays: the vectors of the classifiers have grown, and their stale entries
    are taken for support vectors. *)
Theorem recompute_in_bounds_refuted : exists D meps al,
  labels_ok D /\
  let second := fst (gather_results D meps al (snd (gather_results D meps al fresh))) in
  (exists k s, In (k, s) (index_writes second) /\ n_sv second <= k) /\
  (exists i k v, In (i, k, v) (coefficient_writes second) /\ n_sv second <= k).
Proof.
  exists four_samples, (1 # 1000)%Q, some_coefficients.
  split; [apply four_samples_laid_out|]. split.
  - exists 4, 3. vm_compute. split; [|lia]. tauto.
  - exists 1, 4, (-(1#1))%Q. vm_compute. split; [|lia]. tauto.
Qed.
Print Assumptions recompute_in_bounds_refuted.

(** Two classes: the first compute reports the number of support vectors per
    class, the second does not. *)
Theorem first_counts_partial D meps al :
  (forall s, s < samples D -> label D s = 0 \/ label D s = 1) ->
  count_of D meps al 0 (fst (fst (binary_counts D meps al ([], [])))) /\
  count_of D meps al 1 (snd (fst (binary_counts D meps al ([], [])))).
Proof. exact (first_binary D meps al). Qed.
Print Assumptions first_counts_partial.
Theorem recompute_counts_refuted : exists D meps al,
  (forall s, s < samples D -> label D s = 0 \/ label D s = 1) /\
  fst (binary_counts D meps al (snd (binary_counts D meps al ([], [])))) <>
  fst (binary_counts D meps al ([], [])).
Proof.
  exists (Labelled 2 2 (fun s => s)), (1 # 1000)%Q, (fun s => if s =? 0 then (-(1#1))%Q else 1%Q).
  split; [simpl; intros; lia|]. vm_compute. discriminate.
Qed.
Print Assumptions recompute_counts_refuted.

(** The squared norms for the RBF kernel. *)
Theorem first_norms_partial n p x j : j < n ->
  (nth j (add_norms n p x []) 0 == sum (fun i => x i j * x i j) (seq 0 p))%Q.
Proof.
  intro H. unfold add_norms.
  rewrite (nth_indep _ 0%Q ((fun j => nth j (@nil Q) 0 + sum (fun i => x i j * x i j) (seq 0 p))%Q 0)) by
    (rewrite map_length, seq_length; exact H).
  rewrite (map_nth (fun j => nth j (@nil Q) 0 + sum (fun i => x i j * x i j) (seq 0 p))%Q), seq_nth by exact H.
  simpl. destruct j; ring.
Qed.
Print Assumptions first_norms_partial.
Theorem recompute_norms_refuted : exists n p x j, j < n /\
  ~ (nth j (add_norms n p x (add_norms n p x [])) 0 == sum (fun i => x i j * x i j) (seq 0 p))%Q.
Proof. exists 1, 1, (fun _ _ => 1%Q), 0. split; [lia|]. vm_compute. discriminate. Qed.
Print Assumptions recompute_norms_refuted.
Example norms_of_two : map Qred (add_norms 2 2 (fun i j => inject_Z (Z.of_nat (i + 2 * j))) []) = [1; 13]%Q.
Proof. reflexivity. Qed.

(** The support vectors are rows of the user's matrix, provided that there are no
    gaps between its columns. *)
Theorem support_vectors_are_rows_partial cm X nrow ldx s j : s < nrow -> (cm = true -> ldx = nrow) ->
  support_vector cm X nrow ldx s j = entry cm X ldx s j.
Proof. exact (kept_entry cm X nrow ldx s j). Qed.
Print Assumptions support_vectors_are_rows_partial.
Theorem support_vectors_are_rows_refuted : exists X nrow ldx s j, s < nrow /\ nrow <= ldx /\
  support_vector true X nrow ldx s j <> entry true X ldx s j.
Proof.
  exists (fun k => inject_Z (Z.of_nat k)), 2, 3, 0, 1. split; [lia|]. split; [lia|]. vm_compute. discriminate.
Qed.
Print Assumptions support_vectors_are_rows_refuted.
Example row_of_row_major :
  map (support_vector false (fun k => inject_Z (Z.of_nat k)) 2 5 1) [0; 1; 2] = map inject_Z [5; 6; 7]%Z.
Proof. reflexivity. Qed.
