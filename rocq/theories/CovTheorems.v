(** Covariance and correlation matrices. *)
From Coq Require Import ZArith List Bool Reals Lia Lra Permutation.
From Flocq Require Import IEEE754.BinarySingleNaN.
From Verif Require Import Base F64 KmTheorems NnModel RealArith MomModel MomSpec MomStdProofs MomTheorems CovModel CovSpec CovProofs.
Import ListNotations.
Local Open Scope R_scope.

(** C157: the covariance matrix, in exact arithmetic: entry (i, j) is the sum of the products of the deviations of
    columns i and j over the documented divisor (without centring, of the products of the values), for both orders of
    storage and every leading dimension; nothing else is written. *)
Theorem covariance_exact : forall t o n p (X : Z -> R) ldx dof mat ld ac, good_team t -> good_dims o n p ldx -> (1 < n)%Z -> (p <= ld)%Z ->
  (ac = 0 \/ ac = 1)%Z ->
  let x := fun k j => X (entry o ldx k j) in
  let '(st, cov) := covariance_matrix arithR t o n p X ldx dof mat ld ac in
  st = st_success /\
  (forall i j, (0 <= i < p)%Z -> (0 <= j < p)%Z ->
     cov (entry o ld i j) = if (ac =? 0)%Z then Rcov x n dof i j else Rcov0 x n dof i j) /\
  (forall a, outside o p ld a -> cov a = mat a).
Proof.
  intros t o n p X ldx dof mat ld ac Ht (Hm & Hp & Hl) Hn Hld Hac x. unfold covariance_matrix, cov_corr_matrix.
  replace (ldx <? _)%Z with false by (symmetry; apply Z.ltb_ge; lia).
  replace (ld <? p)%Z with false by (symmetry; apply Z.ltb_ge; lia).
  replace (n <=? 1)%Z with false by (symmetry; apply Z.leb_gt; lia).
  replace (p <? 1)%Z with false by (symmetry; apply Z.ltb_ge; lia). cbn [orb].
  replace (negb (ac =? 0)%Z && negb (ac =? 1)%Z) with false by (destruct Hac as [-> | ->]; reflexivity).
  cbv zeta. rewrite orb_false_r. fold (dof_of n dof).
  assert (S : (1 <= dof_of n dof)%Z) by (unfold dof_of; destruct (dof <? 0)%Z eqn:?; [|destruct (dof =? 0)%Z eqn:?]; lia).
  replace (dof_of n dof <? 1)%Z with false by (symmetry; apply Z.ltb_ge; lia).
  apply IZR_le in S. split; [reflexivity|]. split.
  - intros i j Hi Hj. rewrite (mirror_entry o n p ld Hld) by auto.
    change (div arithR (of_Z arithR 1) (of_Z arithR (dof_of n dof))) with (1 / IZR (dof_of n dof)).
    destruct Hac as [-> | ->]; cbn [Z.eqb]; cbv iota.
    + unfold Rcov, co_deviation.
      erewrite Rsum_ext by (intros k Hk; rewrite !centred by auto; reflexivity). change (ent o ldx X) with x. field. lra.
    + unfold Rcov0. erewrite Rsum_ext by (intros k Hk; rewrite !copy_entry by auto; reflexivity). unfold x. field. lra.
  - intros a Ha. apply (outside_kept o n p ld Hld); auto.
Qed.
Print Assumptions covariance_exact.
(** ... it is symmetric and positive semidefinite, its diagonal holds the variances. *)
Theorem covariance_semidefinite : forall t o n p (X : Z -> R) ldx dof mat ld ac, good_team t -> good_dims o n p ldx -> (1 < n)%Z -> (p <= ld)%Z ->
  (ac = 0 \/ ac = 1)%Z ->
  let cov := snd (covariance_matrix arithR t o n p X ldx dof mat ld ac) in
  (forall i j, (0 <= i < p)%Z -> (0 <= j < p)%Z -> cov (entry o ld i j) = cov (entry o ld j i)) /\
  (forall v, 0 <= Rsum (fun i => Rsum (fun j => v i * v j * cov (entry o ld i j)) p) p) /\
  (ac = 0%Z -> forall j, (0 <= j < p)%Z -> cov (entry o ld j j) = Rvariance o axis_col n p ldx X dof j).
Proof.
  intros t o n p X ldx dof mat ld ac Ht Hd Hn Hld Hac.
  pose proof (covariance_exact t o n p X ldx dof mat ld ac Ht Hd Hn Hld Hac) as H. cbv zeta in *.
  destruct (covariance_matrix _ _ _ _ _ _ _ _ _ _ _) as [st cov]. destruct H as (_ & H & _). cbn [snd].
  set (x := fun k j => X (entry o ldx k j)) in *.
  assert (S : (1 <= dof_of n dof)%Z) by (unfold dof_of; destruct (dof <? 0)%Z eqn:?; [|destruct (dof =? 0)%Z eqn:?]; lia).
  apply IZR_le in S.
  assert (G : exists y : Z -> Z -> R, forall i j, (0 <= i < p)%Z -> (0 <= j < p)%Z ->
     cov (entry o ld i j) = Rsum (fun k => y k i * y k j) n / IZR (dof_of n dof)).
  { destruct Hac as [-> | ->].
    - exists (fun k j => x k j - col_mean x n j). intros. apply H; auto.
    - exists x. intros. apply H; auto. }
  destruct G as [y G]. split; [|split].
  - intros i j Hi Hj. rewrite !G by auto. f_equal. apply Rsum_ext. intros; ring.
  - intros v.
    rewrite (Rsum_ext _ (fun i => / IZR (dof_of n dof) * Rsum (fun j => v i * v j * Rsum (fun k => y k i * y k j) n) p)).
    + rewrite Rsum_scale, gram. apply Rmult_le_pos; [left; apply Rinv_0_lt_compat; lra|].
      apply Rsum_nonneg. intros. apply Rle_0_sqr.
    + intros i Hi. rewrite <- Rsum_scale. apply Rsum_ext. intros j Hj. rewrite G by auto. unfold Rdiv. ring.
  - intros -> j Hj. rewrite H by auto. change (0 =? 0)%Z with true. cbv iota. unfold Rcov, Rvariance, degrees, nobs. fold (dof_of n dof).
    replace (dof_of n dof =? 0)%Z with false by (symmetry; apply Z.eqb_neq; intros C; rewrite C in S; lra).
    f_equal. unfold sum_of, slice_total, co_deviation. apply Rsum_ext. intros k Hk.
    change (col_mean x n j) with (Rmean o axis_col n p ldx X j). unfold x. ring.
Qed.
Print Assumptions covariance_semidefinite.
(** ... and arguments are refused exactly when they describe no data, the result staying as it was. *)
Theorem covariance_refusals : forall T (N : arith T) t o n p X ldx dof mat ld ac,
  let '(st, cov) := covariance_matrix N t o n p X ldx dof mat ld ac in
  (st = st_success <-> good_dims o n p ldx /\ (1 < n)%Z /\ (p <= ld)%Z /\ (ac = 0 \/ ac = 1)%Z) /\ (st <> st_success -> cov = mat).
Proof.
  intros. unfold covariance_matrix, cov_corr_matrix, good_dims.
  destruct (ldx <? _)%Z eqn:E1; [split; [split; [discriminate|lia]|reflexivity]|].
  destruct (ld <? p)%Z eqn:E2; [split; [split; [discriminate|lia]|reflexivity]|].
  destruct ((n <=? 1)%Z || (p <? 1)%Z) eqn:E3; [split; [split; [discriminate|lia]|reflexivity]|].
  destruct (negb (ac =? 0)%Z && negb (ac =? 1)%Z) eqn:E4; [split; [split; [discriminate|lia]|reflexivity]|].
  split; [|intros C; elim C; reflexivity]. split; [intros _|reflexivity]. lia.
Qed.
Print Assumptions covariance_refusals.

(** C158: the correlation matrix, in exact arithmetic: ones on the diagonal, elsewhere the covariance over the product of
    the standard deviations, 0 if one of the columns is constant; nothing else is written ... *)
Theorem correlation_exact : forall t o n p (X : Z -> R) ldx mat ld, good_team t -> good_dims o n p ldx -> (1 < n)%Z -> (p <= ld)%Z ->
  let x := fun k j => X (entry o ldx k j) in
  let '(st, corr) := correlation_matrix arithR t o n p X ldx mat ld in
  st = st_success /\
  (forall i, (0 <= i < p)%Z -> corr (entry o ld i i) = 1) /\
  (forall i j, (0 <= i < p)%Z -> (0 <= j < p)%Z -> i <> j ->
     (~ constant_col x n i -> ~ constant_col x n j -> corr (entry o ld i j) = Rcorr x n i j) /\
     (constant_col x n i \/ constant_col x n j -> corr (entry o ld i j) = 0)) /\
  (forall a, outside o p ld a -> corr a = mat a).
Proof.
  intros t o n p X ldx mat ld Ht (Hm & Hp & Hl) Hn Hld x. unfold correlation_matrix, cov_corr_matrix.
  replace (ldx <? _)%Z with false by (symmetry; apply Z.ltb_ge; lia).
  replace (ld <? p)%Z with false by (symmetry; apply Z.ltb_ge; lia).
  replace (n <=? 1)%Z with false by (symmetry; apply Z.leb_gt; lia).
  replace (p <? 1)%Z with false by (symmetry; apply Z.ltb_ge; lia). cbn [orb Z.eqb negb andb].
  cbv zeta. rewrite orb_true_r. split; [reflexivity|]. split; [|split].
  - intros i Hi. rewrite unit_entry by auto. rewrite Z.eqb_refl. reflexivity.
  - intros i j Hi Hj Hij. rewrite unit_entry by auto. replace (i =? j)%Z with false by (symmetry; apply Z.eqb_neq; auto).
    rewrite (mirror_entry o n p ld Hld) by auto. change (div arithR (of_Z arithR 1) (of_Z arithR 1)) with (1 / 1).
    erewrite Rsum_ext by (intros k Hk; rewrite !standardized by auto; reflexivity). change (ent o ldx X) with x.
    set (di := nz (R_sqrt.sqrt (co_deviation x n i i))). set (dj := nz (R_sqrt.sqrt (co_deviation x n j j))).
    assert (Ni : di <> 0) by apply nz_ne. assert (Nj : dj <> 0) by apply nz_ne.
    rewrite (Rsum_ext _ (fun k => / (di * dj) * ((x k i - col_mean x n i) * (x k j - col_mean x n j)))) by (intros; field; auto).
    rewrite Rsum_scale. fold (co_deviation x n i j).
    pose proof (co_deviation_nonneg x n i) as Pi. pose proof (co_deviation_nonneg x n j) as Pj. split.
    + intros Ci Cj. unfold constant_col in *. unfold Rcorr, di, dj.
      assert (R_sqrt.sqrt (co_deviation x n i i) <> 0) by (intros C; apply Ci, sqrt_eq_0; auto).
      assert (R_sqrt.sqrt (co_deviation x n j j) <> 0) by (intros C; apply Cj, sqrt_eq_0; auto).
      rewrite !nz_same by auto. field. auto.
    + intros C. pose proof (co_deviation_bound x n i j) as B.
      assert (co_deviation x n i j = 0) as -> by (unfold constant_col in C; destruct C as [C|C]; rewrite C in B; nra). ring.
  - intros a Ha. destruct (outside_kept o n p ld Hld (1 / 1) (std_data (standardize arithR t o axis_col n p (x_copy o n p X ldx) (ld_copy o n p) 1 0 None None)) (ld_copy o n p) mat a Hp Ha) as [A B].
    rewrite B. exact A.
Qed.
Print Assumptions correlation_exact.
(** ... so it is symmetric with entries between -1 and 1. *)
Theorem correlation_bounded : forall t o n p (X : Z -> R) ldx mat ld i j, good_team t -> good_dims o n p ldx -> (1 < n)%Z -> (p <= ld)%Z ->
  (0 <= i < p)%Z -> (0 <= j < p)%Z ->
  let corr := snd (correlation_matrix arithR t o n p X ldx mat ld) in
  corr (entry o ld i j) = corr (entry o ld j i) /\ -1 <= corr (entry o ld i j) <= 1.
Proof.
  intros t o n p X ldx mat ld i j Ht Hd Hn Hld Hi Hj.
  pose proof (correlation_exact t o n p X ldx mat ld Ht Hd Hn Hld) as H. cbv zeta in *.
  destruct (correlation_matrix _ _ _ _ _ _ _ _ _) as [st corr]. destruct H as (_ & H1 & H2 & _). cbn [snd].
  set (x := fun k j => X (entry o ldx k j)) in *.
  destruct (Z.eq_dec i j) as [<-|Hij]; [rewrite H1 by auto; lra|].
  destruct (H2 i j Hi Hj Hij) as [A B]. destruct (H2 j i Hj Hi (not_eq_sym Hij)) as [A' B'].
  destruct (Req_EM_T (co_deviation x n i i) 0) as [Ci|Ci]; [rewrite B, B' by (unfold constant_col; auto); lra|].
  destruct (Req_EM_T (co_deviation x n j j) 0) as [Cj|Cj]; [rewrite B, B' by (unfold constant_col; auto); lra|].
  rewrite A, A' by auto. pose proof (co_deviation_nonneg x n i). pose proof (co_deviation_nonneg x n j).
  split; [|apply corr_bound; lra]. unfold Rcorr. rewrite (co_deviation_sym x n i j), (Rmult_comm (R_sqrt.sqrt _)). reflexivity.
Qed.
Print Assumptions correlation_bounded.

(** Two columns 1 2 3 and 2 4 9 (and a padding row), stored with leading dimensions 4 and 3: covariances 1, 3.5 and 13;
    the third row of the result is kept. *)
Definition two_columns := fun a : Z => n64 (nth (Z.to_nat a) [1; 2; 3; 77; 2; 4; 9; 77]%Z 0%Z).
Example covariance_case :
  good_team backwards /\ good_dims column_major 3 2 4 /\ outside column_major 2 3 2 /\
  let '(st, cov) := covariance_matrix (arith64 pw0) backwards column_major 3 2 two_columns 4 0 (fun _ => n64 55) 3 0 in
  st = st_success /\
  map (fun a => B2SF (cov a)) [0; 1; 2; 3; 4; 5]%Z =
  map B2SF [n64 1; f64_div (n64 7) (n64 2); n64 55; f64_div (n64 7) (n64 2); n64 13; n64 55].
Proof.
  split; [exact backwards_good|]. split; [unfold good_dims; lia|]. split; [intros i j Hi Hj; unfold entry; lia|].
  vm_compute. repeat split; reflexivity.
Qed.
(** The second column constant: correlation 0 beside the unit diagonal, row-major. *)
Example correlation_case :
  good_dims row_major 2 3 3 /\
  let '(st, corr) := correlation_matrix (arith64 pw0) backwards row_major 2 3 (fun a => n64 (nth (Z.to_nat a) [0; 5; 8; 8; 5; 0]%Z 0%Z)) 3 (fun _ => n64 55) 3 in
  st = st_success /\ B2SF (corr 4%Z) = B2SF (n64 1) /\ B2SF (corr 1%Z) = B2SF (corr 3%Z) /\
  is0 (arith64 pw0) (corr 1%Z) = true /\ lt (arith64 pw0) (corr 2%Z) (n64 0) = true.
Proof. split; [unfold good_dims; lia|]. vm_compute. repeat split; reflexivity. Qed.
Example correlation_columns : (* both kinds of column are met *)
  let x := fun k j => IZR (if (j =? 1)%Z then 5 else k * j) in
  constant_col x 2 1 /\ ~ constant_col x 2 2.
Proof.
  cbv beta zeta. unfold constant_col, co_deviation, col_mean, Rsum. change (Z.to_nat 2) with 2%nat. cbn [total Z.of_nat Z.eqb Pos.eqb Z.mul].
  split; [|intros C]; cbn in *; lra.
Qed.
