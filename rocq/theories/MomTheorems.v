(** Means, variances, higher moments and standardization of a matrix: the theorems. *)
From Coq Require Import ZArith List Bool Permutation Reals Rpower Lia Lra Floats.SpecFloat.
From Flocq Require Import IEEE754.BinarySingleNaN.
From Verif Require Import Base F64 NnModel RealArith MomModel MomSpec MomProofs MomRealProofs MomStdProofs KmTheorems.
Import ListNotations.
Local Open Scope Z_scope.

Definition one_thread : team := Team 1 1 (fun l => l) (fun l => l).
(** A team of three whose threads finish backwards. *)
Definition backwards : team := Team 3 3 (@rev nat) (@rev (Z * Z)).
Lemma one_thread_good : good_team one_thread.
Proof. split; [cbn; lia|]. split; [cbn; lia|]. split; intros; apply Permutation_refl. Qed.
Lemma backwards_good : good_team backwards.
Proof. split; [cbn; lia|]. split; [cbn; lia|]. split; intros; apply Permutation_rev. Qed.

(** C116: whatever the layout, the axis, the leading dimension and the team, result [k] is built from each entry of
    its column (row, matrix) exactly once, and from no other element of memory ... *)
Theorem every_entry_once : forall t o ax m n ldx k a, good_team t -> good_dims o m n ldx -> is_result ax m n k ->
  let reads := da_sum Nat.add O t o ax m n ldx (fun _ b => if b =? a then 1%nat else 0%nat) k in
  (behind o ax m n ldx k a -> reads = 1%nat) /\ (~ behind o ax m n ldx k a -> reads = 0%nat).
Proof. exact once. Qed.
Print Assumptions every_entry_once.
(** ... and is the sum of their terms, for any addition that may be reordered, each term being made with the parameter
    (the mean) of result [k]. *)
Theorem sums_are_complete : forall (T : Type) (add : T -> T -> T) (zero : T),
  (forall a b c, add a (add b c) = add (add a b) c) -> (forall a b, add a b = add b a) -> (forall a, add a zero = a) ->
  forall t o ax m n ldx (val : Z -> Z -> T) k, good_team t -> good_dims o m n ldx -> is_result ax m n k ->
  da_sum add zero t o ax m n ldx val k = slice_total add zero o ax m n ldx (val k) k.
Proof. exact (@da_sum_total). Qed.
Print Assumptions sums_are_complete.
Example sums_example :
  good_dims column_major 3 2 4 /\
  map (da_sum Z.add 0 backwards column_major axis_row 3 2 4 (fun _ a => a)) [0; 1; 2] = [4; 6; 8] /\
  map (da_sum Z.add 0 backwards column_major axis_col 3 2 4 (fun _ a => a)) [0; 1] = [3; 15] /\
  da_sum Z.add 0 backwards row_major axis_all 3 2 4 (fun _ a => a) 0 = 27 /\
  da_sum Z.add 0 backwards column_major axis_row 2050 2 2051 (fun _ a => a) 2049 = 2049 + 4100.
Proof. split; [unfold good_dims; lia|]. vm_compute. repeat split; reflexivity. Qed.
(** Three threads, three outer blocks and a tree reduction over them. *)
Example blocks_example :
  let s := block_shape backwards 5000 3 in
  (n_outer s, outer_size s, n_inner s, inner_size s) = (3, 1666, 1, 2048) /\
  da_sum Z.add 0 backwards row_major axis_col 5000 3 3 (fun _ a => 1) 1 = 5000.
Proof. vm_compute. split; reflexivity. Qed.

(** C117: mean, variance and central moments are the textbook ones in exact arithmetic ... *)
Theorem moments_exact : forall t o ax m n ldx (X : Z -> R) dof k, good_team t -> good_dims o m n ldx -> is_result ax m n k ->
  mean arithR t o ax m n X ldx k = Rmean o ax m n ldx X k /\
  fst (variance arithR t o ax m n X ldx dof) k = Rmean o ax m n ldx X k /\
  snd (variance arithR t o ax m n X ldx dof) k = Rvariance o ax m n ldx X dof k /\
  (forall j, 0 <= j -> moment arithR t o ax m n X ldx j None k = Rcentral o ax m n ldx X (Z.to_nat j) k) /\
  (forall j c, 0 <= j -> moment arithR t o ax m n X ldx j (Some c) k =
     (sum_of o ax m n ldx (fun x => (x - c k) ^ Z.to_nat j) X k / IZR (nobs ax m n))%R).
Proof.
  intros t o ax m n ldx X dof k Ht Hd Hk. destruct (variance_R o ax m n ldx Hd t Ht X dof k Hk) as [E1 E2].
  split; [apply mean_R; auto|]. split; [exact E1|]. split; [exact E2|].
  split; intros; rewrite moment_R by auto; reflexivity.
Qed.
Print Assumptions moments_exact.
(** ... so they depend on neither the layout nor the team. *)
Theorem statistics_layout_independent : forall t t' o o' ax m n ldx ldx' (X X' : Z -> R) dof k,
  good_team t -> good_team t' -> good_dims o m n ldx -> good_dims o' m n ldx' -> is_result ax m n k ->
  (forall r c, 0 <= r < m -> 0 <= c < n -> X (entry o ldx r c) = X' (entry o' ldx' r c)) ->
  mean arithR t o ax m n X ldx k = mean arithR t' o' ax m n X' ldx' k /\
  snd (variance arithR t o ax m n X ldx dof) k = snd (variance arithR t' o' ax m n X' ldx' dof) k.
Proof.
  intros t t' o o' ax m n ldx ldx' X X' dof k Ht Ht' Hd Hd' Hk H.
  destruct (layout_R ax m n o o' ldx ldx' X X' k dof (proj1 Hd) (proj1 (proj2 Hd)) Hk H) as [E1 E2].
  rewrite (mean_R o), (mean_R o'), (proj2 (variance_R o ax m n ldx Hd t Ht X dof k Hk)),
    (proj2 (variance_R o' ax m n ldx' Hd' t' Ht' X' dof k Hk)); auto.
Qed.
Print Assumptions statistics_layout_independent.
(** double: columns (1, 3, 8) and (2, 2, 2) *)
Definition X32 (a : Z) : f64 := n64 (nth (Z.to_nat a) [1; 3; 8; 2; 2; 2] 0).
Example moments_example :
  let N := arith64 pw0 in
  map (fun k => B2SF (mean N backwards column_major axis_col 3 2 X32 3 k)) [0; 1] = map (fun z => B2SF (n64 z)) [4; 2] /\
  map (fun k => B2SF (snd (variance N backwards column_major axis_col 3 2 X32 3 0) k)) [0; 1] = map (fun z => B2SF (n64 z)) [13; 0] /\
  map (fun k => B2SF (moment N backwards column_major axis_col 3 2 X32 3 3 (Some (fun _ => n64 2)) k)) [0; 1] = [B2SF (f64_div (n64 216) (n64 3)); B2SF (n64 0)].
Proof. vm_compute. repeat split; reflexivity. Qed.

(** C118: skewness and excess kurtosis in exact arithmetic. *)
Theorem skewness_exact : forall t o ax m n ldx (X : Z -> R) k, good_team t -> good_dims o m n ldx -> is_result ax m n k ->
  let '(mu, v, g) := skewness arithR t o ax m n X ldx in
  mu k = Rmean o ax m n ldx X k /\ v k = Rcentral o ax m n ldx X 2 k /\
  (v k = 0%R -> g k = 0%R) /\ (v k <> 0%R -> g k = (Rcentral o ax m n ldx X 3 k / (v k * R_sqrt.sqrt (v k)))%R).
Proof. intros. apply skewness_R; auto. Qed.
Print Assumptions skewness_exact.
Theorem kurtosis_exact : forall t o ax m n ldx (X : Z -> R) k, good_team t -> good_dims o m n ldx -> is_result ax m n k ->
  let '(mu, v, g) := kurtosis arithR t o ax m n X ldx in
  mu k = Rmean o ax m n ldx X k /\ v k = Rcentral o ax m n ldx X 2 k /\
  (v k = 0%R -> g k = (-3)%R) /\ (v k <> 0%R -> g k = (Rcentral o ax m n ldx X 4 k / (v k) ^ 2 - 3)%R).
Proof. intros. apply kurtosis_R; auto. Qed.
Print Assumptions kurtosis_exact.
Example kurtosis_example :
  let '(_, v, g) := kurtosis (arith64 pw0) backwards row_major axis_row 1 4 (fun a => n64 (nth (Z.to_nat a) [1; 1; 3; 3] 0)) 4 in
  B2SF (v 0) = B2SF (n64 1) /\ B2SF (g 0) = B2SF (n64 (-2)).
Proof. vm_compute. split; reflexivity. Qed.

(** C119: the geometric mean of positive data is the nth root of the product, and the harmonic mean of nonzero data is
    n over the sum of the inverses, in exact arithmetic ... *)
Theorem geometric_mean_exact : forall t o ax m n ldx (X : Z -> R) minf k, good_team t -> good_dims o m n ldx -> is_result ax m n k ->
  (forall r c, 0 <= r < m -> 0 <= c < n -> (0 < X (entry o ldx r c))%R) ->
  let '(st, g) := geometric_mean arithR exp ln minf t o ax m n X ldx in
  st = st_success /\ (0 < g k)%R /\ (g k ^ Z.to_nat (nobs ax m n) = product_of o ax m n ldx X k)%R.
Proof.
  intros t o ax m n ldx X minf k Ht Hd Hk HX. pose proof (geometric_R o ax m n ldx Hd t Ht X minf k Hk HX) as H.
  destruct (geometric_mean _ _ _ _ _ _ _ _ _ _ _) as [st g]. exact H.
Qed.
Print Assumptions geometric_mean_exact.
Theorem harmonic_mean_partial : forall t o ax m n ldx (X : Z -> R) k, good_team t -> good_dims o m n ldx -> is_result ax m n k ->
  (forall a, behind o ax m n ldx k a -> X a <> 0%R) -> sum_of o ax m n ldx Rinv X k <> 0%R ->
  harmonic_mean arithR t o ax m n X ldx k = (IZR (nobs ax m n) / sum_of o ax m n ldx Rinv X k)%R.
Proof. intros. apply harmonic_R; auto. Qed.
Print Assumptions harmonic_mean_partial.
(** ... but a zero is left out of the sum and kept in the count: the "mean" of 0 and 1 is 2, beyond all the data, where
    the limit of the definition is 0. *)
Theorem harmonic_mean_refuted :
  let X := fun a => n64 a in
  B2SF (harmonic_mean (arith64 pw0) one_thread column_major axis_all 2 1 X 2 0) = B2SF (n64 2) /\
  B2SF (X 0) = B2SF (n64 0) /\ B2SF (X 1) = B2SF (n64 1).
Proof. vm_compute. repeat split; reflexivity. Qed.
Print Assumptions harmonic_mean_refuted.
Example harmonic_example :
  B2SF (harmonic_mean (arith64 pw0) backwards row_major axis_col 2 1 (fun a => n64 (2 + 2 * a)) 1 0) = B2SF (f64_div (n64 2) (f64_div (n64 3) (n64 4))).
Proof. vm_compute. reflexivity. Qed.
Example geometric_example :
  (forall r c, 0 <= r < 2 -> 0 <= c < 2 -> (0 < (fun a => IZR (1 + a)) (entry row_major 2 r c))%R) /\
  fst (geometric_mean (arith64 pw0) (fun x => x) (fun x => x) (n64 0) one_thread row_major axis_col 2 2 (fun a => n64 (a - 1)) 2) = st_negative_data.
Proof. split; [|vm_compute; reflexivity]. intros r c Hr Hc. apply IZR_lt. unfold entry. nia. Qed.

(** C120: standardizing with computed statistics gives mean 0 and variance 1 (0 for constant data), in exact
    arithmetic; the arrays handed back hold the mean and the standard deviation. *)
Theorem standardized_data : forall t o ax m n ldx dof (X : Z -> R) shift scale k,
  good_team t -> good_dims o m n ldx -> is_result ax m n k -> to_be_computed ax m n shift scale ->
  let r := standardize arithR t o ax m n X ldx dof 0 shift scale in
  std_status r = st_success /\
  Rmean o ax m n ldx (std_data r) k = 0%R /\
  Rvariance o ax m n ldx (std_data r) dof k = (if Req_EM_T (Rvariance o ax m n ldx X dof k) 0 then 0 else 1)%R /\
  (forall a, std_shift r = Some a -> a k = Rmean o ax m n ldx X k) /\
  (forall a, std_scale r = Some a -> a k = R_sqrt.sqrt (Rvariance o ax m n ldx X dof k)).
Proof.
  intros t o ax m n ldx dof X shift scale k Ht Hd Hk Hc.
  destruct (standardized_moments t o ax m n ldx dof Ht Hd X shift scale k Hc Hk) as [E1 E2].
  destruct (computed_arrays t o ax m n ldx dof Ht Hd X shift scale Hc) as (_ & _ & A1 & A2).
  cbv zeta in *. rewrite standardize_run in * by auto. cbv zeta. cbn [std_status std_data std_shift std_scale] in *.
  split; [reflexivity|]. split; [exact E1|]. split; [exact E2|]. split; intros; [eapply A1|eapply A2]; eauto.
Qed.
Print Assumptions standardized_data.
Example standardized_example :
  let r := standardize (arith64 pw0) one_thread row_major axis_col 2 2 (fun a => n64 (nth (Z.to_nat a) [1; 5; 3; 5] 0)) 2 (-1) 0
             (Some (fun _ => n64 0)) (Some (fun _ => n64 0)) in
  std_status r = st_success /\
  map (fun a => B2SF (std_data r a)) [0; 1; 2; 3] = map (fun z => B2SF (n64 z)) [-1; 0; 1; 0].
Proof. vm_compute. split; reflexivity. Qed.

(** C121: with supplied means and a scale array of zeros the standard deviations about those means should be computed;
    they are when dof is negative ... *)
Theorem deviation_about_supplied_means_partial : forall t o ax m n ldx dof (X sh sc : Z -> R) k,
  good_team t -> good_dims o m n ldx -> is_result ax m n k ->
  ~ zeros 0%R ax m n sh -> zeros 0%R ax m n sc -> dof < 0 ->
  exists a, std_scale (standardize arithR t o ax m n X ldx dof 0 (Some sh) (Some sc)) = Some a /\
    a k = Rdeviation_about o ax m n ldx X (sh k) dof k.
Proof. intros. apply about_given; auto. Qed.
Print Assumptions deviation_about_supplied_means_partial.
(** ... otherwise the number of results is used in place of the number of observations: with three columns (1, 3) and
    means 1 the scale is sqrt 3 instead of 2 ... *)
Theorem deviation_about_supplied_means_refuted :
  let X := fun a => if Z.even a then 1%R else 3%R in
  exists a, std_scale (standardize arithR one_thread column_major axis_col 2 3 X 2 0 0 (Some (fun _ => 1%R)) (Some (fun _ => 0%R))) = Some a /\
    Rdeviation_about column_major axis_col 2 3 2 X 1 0 0 = 2%R /\ a 0 = R_sqrt.sqrt 3 /\ a 0 <> 2%R.
Proof.
  cbv zeta.
  assert (S : sum_of column_major axis_col 2 3 2 (fun x => (x - 1) ^ 2)%R (fun a => if Z.even a then 1%R else 3%R) 0 = 4%R).
  { unfold sum_of, slice_total. change (Z.to_nat 2) with 2%nat. cbn [total]. cbn. ring. }
  destruct (about_formula one_thread column_major axis_col 2 3 2 0 one_thread_good ltac:(unfold good_dims; lia)
    (fun a => if Z.even a then 1%R else 3%R) (fun _ => 1%R) (fun _ => 0%R) 0) as (a & Ha & E).
  - unfold is_result. lia.
  - intros Z. specialize (Z 0 ltac:(unfold is_result; lia)). cbn in Z. lra.
  - intros k _. reflexivity.
  - exists a. split; [exact Ha|]. 
    assert (E3 : a 0 = R_sqrt.sqrt 3).
    { rewrite E. f_equal. cbn [fst snd]. rewrite S. cbn. field. }
    split.
    + unfold Rdeviation_about. rewrite S. cbn. replace (4 / 1)%R with (2 * 2)%R by field. apply sqrt_square. lra.
    + split; [exact E3|]. rewrite E3. intros C. pose proof (sqrt_sqrt 3 ltac:(lra)) as Q. rewrite C in Q. lra.
Qed.
Print Assumptions deviation_about_supplied_means_refuted.
(** ... and with one column (or overall) the scale is infinite and all the data become 0. *)
Theorem deviation_about_supplied_mean_infinite_refuted :
  let r := standardize (arith64 pw0) one_thread column_major axis_col 3 1 (fun a => n64 (a + 1)) 3 0 0
             (Some (fun _ => n64 1)) (Some (fun _ => n64 0)) in
  std_status r = st_success /\
  match std_scale r with Some s => B2SF (s 0) = S754_infinity false | None => False end /\
  map (fun a => B2SF (std_data r a)) [0; 1; 2] = map (fun _ => B2SF (n64 0)) [0; 1; 2].
Proof. vm_compute. repeat split; reflexivity. Qed.
Print Assumptions deviation_about_supplied_mean_infinite_refuted.

(** C122: mode 1 with the arrays handed back by mode 0 restores the data in exact arithmetic, unless all the scales are
    zero ... *)
Theorem reversal_restores_partial : forall t o ax m n ldx dof (X : Z -> R) shift scale r c,
  good_team t -> good_dims o m n ldx -> 0 <= r < m -> 0 <= c < n ->
  let r1 := standardize arithR t o ax m n X ldx dof 0 shift scale in
  (shift <> None \/ scale <> None) ->
  (forall sc, std_scale r1 = Some sc -> ~ zeros 0%R ax m n sc) ->
  let r2 := standardize arithR t o ax m n (std_data r1) ldx dof 1 (std_shift r1) (std_scale r1) in
  std_data r2 (entry o ldx r c) = X (entry o ldx r c).
Proof. intros t o ax m n ldx dof X shift scale r c Ht Hd Hr Hc. apply (restore t o ax m n ldx dof Ht Hd X shift scale r c Hr Hc). Qed.
Print Assumptions reversal_restores_partial.
Example reversal_example :
  let N := arith64 pw0 in
  let X := fun a => n64 (nth (Z.to_nat a) [1; 5; 3; 5] 0) in
  let r1 := standardize N one_thread row_major axis_col 2 2 X 2 (-1) 0 (Some (fun _ => n64 0)) (Some (fun _ => n64 0)) in
  let r2 := standardize N one_thread row_major axis_col 2 2 (std_data r1) 2 (-1) 1 (std_shift r1) (std_scale r1) in
  map (fun a => B2SF (std_data r2 a)) [0; 1; 2; 3] = map (fun a => B2SF (X a)) [0; 1; 2; 3].
Proof. vm_compute. reflexivity. Qed.
(** ... in which case (constant data) the zeros are taken as a request to compute the deviations of the standardized
    data about the old means, by the formula above: a constant column comes back as NaN. *)
Theorem reversal_of_constant_data_refuted :
  let N := arith64 pw0 in
  let X := fun _ : Z => n64 5 in
  let r1 := standardize N one_thread column_major axis_col 2 1 X 2 0 0 (Some (fun _ => n64 0)) (Some (fun _ => n64 0)) in
  let r2 := standardize N one_thread column_major axis_col 2 1 (std_data r1) 2 0 1 (std_shift r1) (std_scale r1) in
  std_status r1 = st_success /\ std_status r2 = st_success /\
  map (fun a => B2SF (std_data r1 a)) [0; 1] = map (fun _ => B2SF (n64 0)) [0; 1] /\
  map (fun a => B2SF (std_data r2 a)) [0; 1] = [S754_nan; S754_nan].
Proof. vm_compute. repeat split; reflexivity. Qed.
Print Assumptions reversal_of_constant_data_refuted.
