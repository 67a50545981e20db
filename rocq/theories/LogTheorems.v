(** Logistic regression: theorems. *)
From Coq Require Import ZArith List Bool Reals Lra Lia.
From Flocq Require Import BinarySingleNaN.
From Verif Require Import Base F64 NnModel RealArith CdSpec CdProofs LogModel LogSpec LogProofs LogCodeProofs LogMainProofs KmTheorems.
Import ListNotations.
Local Open Scope R_scope.

(** *** A concrete problem: two samples, one feature, three classes, an intercept, both penalties *)
Definition lX (j i : nat) : R := match i with O => 1 | _ => -2 end.
Definition lP (K : nat) : problem := Problem 2 1 K lX (fun i => match i with O => 1%Z | _ => 0%Z end) true (1 / 2) (1 / 4).
Lemma lP_ok K : (2 <= K)%nat -> well_formed (lP K).
Proof. intros H. split; [exact H|]. split; [|cbn; lra]. intros i _. destruct i; cbn; lia. Qed.

(** *** C123: the objective is the penalised negative log-likelihood *)
Theorem logistic_objective_is_the_cost (P : problem) (c : lconstraint) : well_formed P -> c = SSC \/ nclass P = 2%nat ->
  forall x, objective arithR exp ln P c x = log_cost P c (nrow_coef P c) (solver_matrix c P x).
Proof. intros WF H x. apply objective_full; assumption. Qed.
Print Assumptions logistic_objective_is_the_cost.
Example objective_of_three_classes : forall x,
  objective arithR exp ln (lP 3) SSC x = log_cost (lP 3) SSC 3 (solver_matrix SSC (lP 3) x).
Proof. intros x. apply (logistic_objective_is_the_cost (lP 3) SSC); [apply lP_ok; lia|auto]. Qed.
(** the value at a concrete point: ln 2 for each of two samples and the penalties 1/2 |1| + 1/4 1^2 *)
Example objective_of_two_classes :
  objective arithR exp ln (Problem 2 1 2 (fun _ _ => 0) (fun i => match i with O => 1%Z | _ => 0%Z end) true (1 / 2) (1 / 4)) RSC
    (fun t => match t with O => 1 | _ => 0 end) = 2 * ln 2 + 3 / 4.
Proof.
  set (P := Problem _ _ _ _ _ _ _ _).
  assert (WF : well_formed P) by (split; [cbn; lia|split; [intros i _; destruct i; cbn; lia|cbn; lra]]).
  rewrite (logistic_objective_is_the_cost P RSC WF) by auto. unfold log_cost. rewrite nll_lse by auto. unfold P, penalty.
  cbn. unfold lse. cbn. unfold score. cbn. rewrite Rabs_R1. rewrite !Rmult_0_r, !Rplus_0_r, exp_0.
  replace (1 + 1) with 2 by ring. change (Pos.to_nat 1) with 1%nat. cbn. lra.
Qed.

(** with a reference category the penalty covers the first class only *)
Theorem rsc_objective_partial (P : problem) : well_formed P ->
  forall x, objective arithR exp ln P RSC x = log_cost P RSC 1 (solver_matrix RSC P x).
Proof. intros WF x. apply objective_rsc; assumption. Qed.
Print Assumptions rsc_objective_partial.
Example rsc_objective_of_three_classes : forall x,
  objective arithR exp ln (lP 3) RSC x = log_cost (lP 3) RSC 1 (solver_matrix RSC (lP 3) x).
Proof. intros x. apply rsc_objective_partial, lP_ok. lia. Qed.

(** one sample of class 1, three classes, one feature, l2 penalty: what the solver is given to minimise has no minimum *)
Definition rP : problem := Problem 1 1 3 (fun _ _ => 1) (fun _ => 1%Z) false 0 1.
Lemma rP_ok : well_formed rP.
Proof. split; [cbn; lia|split; [intros i _; cbn; lia|cbn; lra]]. Qed.
Theorem rsc_penalty_refuted :
  well_formed rP /\ 0 < l2reg rP /\
  (exists x, objective arithR exp ln rP RSC x <> log_cost rP RSC (nrow_coef rP RSC) (solver_matrix RSC rP x)) /\
  (forall x, exists x', objective arithR exp ln rP RSC x' < objective arithR exp ln rP RSC x).
Proof.
  assert (E : forall x, objective arithR exp ln rP RSC x = ln (exp (x 0%nat) + (exp (x 1%nat) + 1)) - x 1%nat + x 0%nat ^ 2).
  { intros x. rewrite rsc_objective_partial by exact rP_ok. unfold log_cost. rewrite nll_lse by exact rP_ok. unfold penalty, lse.
    cbn. unfold score. cbn. rewrite !Rplus_0_r, !Rmult_1_r, exp_0. change (Pos.to_nat 1) with 1%nat. cbn. rewrite ?Rmult_1_r, ?Rplus_0_r. ring. }
  split; [exact rP_ok|]. split; [cbn; lra|]. split.
  - exists (fun t => match t with O => 0 | _ => 1 end). rewrite rsc_objective_partial by exact rP_ok. unfold log_cost, penalty. cbn. lra.
  - intros x. exists (fun t => match t with O => x 0%nat | _ => x 1%nat + 1 end). rewrite !E.
    pose proof (exp_pos (x 0%nat)). pose proof (exp_pos (x 1%nat)).
    assert (H1 : 1 < exp 1) by (rewrite <- exp_0 at 1; apply exp_increasing; lra).
    assert (L : ln (exp (x 0%nat) + (exp (x 1%nat + 1) + 1)) < ln (exp (x 0%nat) + (exp (x 1%nat) + 1)) + 1).
    { replace (ln (exp (x 0%nat) + (exp (x 1%nat) + 1)) + 1) with (ln (exp (x 0%nat) + (exp (x 1%nat) + 1)) + ln (exp 1)) by (rewrite ln_exp; reflexivity).
      rewrite <- ln_mult by lra. apply ln_increasing; [pose proof (exp_pos (x 1%nat + 1)); lra|].
      rewrite exp_plus. nra. }
    lra.
Qed.
Print Assumptions rsc_penalty_refuted.

(** *** C124: the gradient is the gradient of that cost, so a point where it vanishes is a global minimum *)
Theorem logistic_gradient_is_the_slope (P : problem) : well_formed P ->
  forall x, subgradient (ncoefs P SSC) (fun x => log_cost P SSC (nrow_coef P SSC) (solver_matrix SSC P x)) x
              (gradient arithR exp ln P SSC false (after_objective arithR exp P SSC x) x).
Proof. intros WF x. apply gradient_ssc; assumption. Qed.
Print Assumptions logistic_gradient_is_the_slope.
Example gradient_of_three_classes : forall x x',
  log_cost (lP 3) SSC 3 (solver_matrix SSC (lP 3) x) +
    Sigma 6 (fun t => gradient arithR exp ln (lP 3) SSC false (after_objective arithR exp (lP 3) SSC x) x t * (x' t - x t))
  <= log_cost (lP 3) SSC 3 (solver_matrix SSC (lP 3) x').
Proof. intros x. apply (logistic_gradient_is_the_slope (lP 3)). apply lP_ok. lia. Qed.
Theorem rsc_gradient_is_the_slope_partial (P : problem) : well_formed P ->
  forall xnew x, subgradient (ncoefs P RSC) (fun x => log_cost P RSC 1 (solver_matrix RSC P x)) x
                   (gradient arithR exp ln P RSC xnew (after_objective arithR exp P RSC x) x).
Proof. intros WF xnew x. apply gradient_rsc; assumption. Qed.
Print Assumptions rsc_gradient_is_the_slope_partial.
Example rsc_gradient_of_three_classes : forall x x',
  log_cost (lP 3) RSC 1 (solver_matrix RSC (lP 3) x) +
    Sigma 4 (fun t => gradient arithR exp ln (lP 3) RSC true (after_objective arithR exp (lP 3) RSC x) x t * (x' t - x t))
  <= log_cost (lP 3) RSC 1 (solver_matrix RSC (lP 3) x').
Proof. intros x. apply (rsc_gradient_is_the_slope_partial (lP 3)). apply lP_ok. lia. Qed.
Theorem logistic_stationary_point_is_optimal (P : problem) (c : lconstraint) : well_formed P -> c = SSC \/ nclass P = 2%nat ->
  forall x, (forall t, (t < ncoefs P c)%nat -> gradient arithR exp ln P c false (after_objective arithR exp P c x) x t = 0) ->
  forall x', log_cost P c (nrow_coef P c) (solver_matrix c P x) <= log_cost P c (nrow_coef P c) (solver_matrix c P x').
Proof.
  intros WF H x Z. destruct c.
  - destruct H as [H|H]; [discriminate|]. replace (nrow_coef P RSC) with 1%nat by (cbn; lia).
    exact (subgradient_zero _ _ _ _ (gradient_rsc P WF false x) Z).
  - exact (subgradient_zero _ _ _ _ (gradient_ssc P WF x) Z).
Qed.
Print Assumptions logistic_stationary_point_is_optimal.
(** three classes, one sample of each, no feature: the intercepts 0 are optimal *)
Definition sP : problem := Problem 3 0 3 (fun _ _ => 0) (fun i => Z.of_nat i) true 0 0.
Lemma sP_ok : well_formed sP.
Proof. split; [cbn; lia|split; [intros i Hi; cbn in *; lia|cbn; lra]]. Qed.
Example balanced_classes_optimal : forall x', log_cost sP SSC 3 (solver_matrix SSC sP (fun _ => 0)) <= log_cost sP SSC 3 (solver_matrix SSC sP x').
Proof.
  apply (logistic_stationary_point_is_optimal sP SSC sP_ok (or_introl eq_refl)). intros t Ht. change (ncoefs sP SSC) with 3%nat in Ht.
  change (gradient arithR exp ln sP SSC false (after_objective arithR exp sP SSC (fun _ => 0)) (fun _ => 0) t)
    with (ssc_gradient arithR exp sP false (ssc_work arithR exp sP (fun _ => 0)) (fun _ => 0) t).
  change t with (0 * nclass sP + t)%nat. rewrite (ssc_gradient_R sP sP_ok ltac:(cbn; lia) (fun _ => 0) 0 t) by (cbn; lia).
  unfold cell_slope, row_slope, resid, probability, indicator. cbn. unfold score. cbn. rewrite !Rplus_0_r, exp_0.
  destruct t as [|[|[|t]]]; [| | |lia]; cbn; field.
Qed.

(** told that the point is new, the gradient under the symmetric side constraint divides by a sum with one term too many *)
Definition qP : problem := Problem 1 0 3 (fun _ _ => 0) (fun _ => 0%Z) true 0 0.
Lemma qP_ok : well_formed qP.
Proof. split; [cbn; lia|split; [intros i Hi; cbn in *; lia|cbn; lra]]. Qed.
Theorem ssc_gradient_at_a_new_point_refuted :
  well_formed qP /\
  ~ subgradient (ncoefs qP SSC) (fun x => log_cost qP SSC (nrow_coef qP SSC) (solver_matrix SSC qP x)) (fun _ => 0)
      (gradient arithR exp ln qP SSC true (after_objective arithR exp qP SSC (fun _ => 0)) (fun _ => 0)).
Proof.
  split; [exact qP_ok|]. intros H. specialize (H (fun _ => -1)). change (ncoefs qP SSC) with 3%nat in H.
  assert (M : forall i, max_from_zero arithR 3 (fun k => ssc_lin arithR qP (fun _ => 0) k i) = 0).
  { intros i. unfold max_from_zero, ssc_lin. cbn. assert (F : Rltb 0 0 = false) by (apply Rltb_false; lra). rewrite F. cbn. rewrite F. cbn. rewrite F. reflexivity. }
  assert (G : forall t, (t < 3)%nat -> gradient arithR exp ln qP SSC true (after_objective arithR exp qP SSC (fun _ => 0)) (fun _ => 0) t
                        = if Nat.eqb t 0 then - (3 / 4) else 1 / 4).
  { intros t Ht. change (gradient arithR exp ln qP SSC true (after_objective arithR exp qP SSC (fun _ => 0)) (fun _ => 0) t)
      with (ssc_gradient arithR exp qP true (ssc_work arithR exp qP (fun _ => 0)) (fun _ => 0) t).
    unfold ssc_gradient. rewrite (reggrd_R qP qP_ok). rewrite msum_R. unfold ssc_pointwise, ssc_work_new. cbn [w_lin w_max w_sum].
    change (nclass qP) with 3%nat. rewrite (Sigma_ext _ _ (fun i => if Nat.eqb t 0 then - (3 / 4) else 1 / 4)).
    - cbn. destruct (t =? 0)%nat; destruct t; cbn; ring.
    - intros i Hi. rewrite M. rewrite Nat.div_small, Nat.mod_small by lia.
      rewrite (fold_sum_R (fun k => exp (sub arithR (ssc_lin arithR qP (fun _ => 0) k i) 0))).
      unfold of_class. cbn. rewrite Rminus_0_r, Ropp_0, exp_0. destruct t as [|[|[|t]]]; [| | |lia]; cbn; field. }
  rewrite (Sigma_ext 3 _ (fun t => if Nat.eqb t 0 then 3 / 4 else - (1 / 4))) in H.
  2:{ intros t Ht. rewrite G by auto. destruct (t =? 0)%nat; field. }
  unfold log_cost in H. rewrite !nll_lse in H by exact qP_ok. unfold penalty, lse in H. cbn in H. unfold score in H. cbn in H.
  rewrite !Rplus_0_l, !Rplus_0_r, exp_0 in H.
  replace (exp (-1) + (exp (-1) + exp (-1))) with (exp (-1) * (1 + (1 + 1))) in H by ring.
  rewrite ln_mult, ln_exp in H by (try apply exp_pos; lra). lra.
Qed.
Print Assumptions ssc_gradient_at_a_new_point_refuted.

(** *** C125: under the symmetric side constraint coefficients that add up to 0 over the classes keep doing so along the gradient *)
Theorem symmetric_side_is_kept (P : problem) : well_formed P -> (2 < nclass P)%nat -> l1reg P = 0 ->
  forall x step, (forall j, (j < nmod P)%nat -> Sigma (nclass P) (fun k => x (j * nclass P + k)%nat) = 0) ->
  forall j, (j < nmod P)%nat ->
    Sigma (nclass P) (fun k => x (j * nclass P + k)%nat +
      step * gradient arithR exp ln P SSC false (after_objective arithR exp P SSC x) x (j * nclass P + k)%nat) = 0.
Proof.
  intros WF H3 H1 x st Z j Hj. rewrite Sigma_add, Sigma_mul, ssc_column_sum by assumption. rewrite Z by assumption.
  destruct (Nat.ltb j (nfeat P)); ring.
Qed.
Print Assumptions symmetric_side_is_kept.
Definition zP : problem := Problem 2 1 3 lX (fun i => match i with O => 1%Z | _ => 0%Z end) true 0 (1 / 4).
Example from_the_start : forall step j, (j < 2)%nat ->
  Sigma 3 (fun k => 0 + step * gradient arithR exp ln zP SSC false (after_objective arithR exp zP SSC (fun _ => 0)) (fun _ => 0) (j * 3 + k)%nat) = 0.
Proof.
  intros st. refine (symmetric_side_is_kept zP _ _ eq_refl (fun _ => 0) st _).
  - split; [cbn; lia|split; [intros i _; destruct i; cbn; lia|cbn; lra]].
  - cbn; lia.
  - intros j _. apply Sigma_zero.
Qed.

(** *** C126: the class predicted is the most likely one *)
Theorem most_likely_class_predicted (P : problem) (c : lconstraint) : (2 <= nclass P)%nat -> c = RSC \/ nclass P = 2%nat ->
  forall x i, most_likely (nclass P) (probability (nclass P) (class_score P c (solver_matrix c P x) i)) (predict arithR exp P c x i).
Proof.
  intros HK H x i. destruct c; [apply predict_rsc; assumption|].
  destruct H as [H|H]; [discriminate|]. apply most_likely_scores; [lia|]. rewrite H at 1. apply predict_two; assumption.
Qed.
Print Assumptions most_likely_class_predicted.
Example second_class_predicted :
  predict arithR exp (lP 3) RSC (fun t => match t with O => -1 | _ => 0 end) 0 = 1%nat.
Proof.
  pose proof (most_likely_class_predicted (lP 3) RSC ltac:(cbn; lia) (or_introl eq_refl) (fun t => match t with O => -1 | _ => 0 end) 0) as (H1 & H2 & H3).
  destruct (predict arithR exp (lP 3) RSC (fun t => match t with O => -1 | _ => 0 end) 0) as [|[|k]]; [|reflexivity|].
  - specialize (H2 1%nat ltac:(cbn; lia)). exfalso. revert H2. unfold probability, Rdiv. set (S := / Sigma _ _).
    assert (0 < S) by (apply Rinv_0_lt_compat, sum_exp_pos; cbn; lia).
    cbn. unfold score. cbn. intros H2. assert (exp (-1 * 1 + 0 + 0) < exp (0 * 1 + 0 + 0)) by (apply exp_increasing; lra). nra.
  - specialize (H3 1%nat ltac:(lia)). exfalso. cbn in H1. assert (k = 0)%nat as -> by lia. revert H3. unfold probability, Rdiv. set (S := / Sigma _ _).
    cbn. unfold score. cbn. replace (0 * 1 + 0 + 0) with 0 by ring. lra.
Qed.
(** under the symmetric side constraint: if the scores do not add up to something negative *)
Theorem ssc_most_likely_class_predicted_partial (P : problem) : (2 <= nclass P)%nat ->
  forall x i, 0 <= Sigma (nclass P) (class_score P SSC (solver_matrix SSC P x) i) ->
  most_likely (nclass P) (probability (nclass P) (class_score P SSC (solver_matrix SSC P x) i)) (predict arithR exp P SSC x i).
Proof. intros HK x i H. apply predict_ssc; assumption. Qed.
Print Assumptions ssc_most_likely_class_predicted_partial.
Example ssc_zero_sum_predicted : forall i,
  most_likely 3 (probability 3 (class_score sP SSC (solver_matrix SSC sP (fun t => match t with O => -1 | 1%nat => -2 | _ => 3 end)) i))
    (predict arithR exp sP SSC (fun t => match t with O => -1 | 1%nat => -2 | _ => 3 end) i).
Proof. intros i. apply (ssc_most_likely_class_predicted_partial sP); [cbn; lia|]. cbn. unfold score. cbn. lra. Qed.
(** scores -3, -1, -2: class 0 is predicted *)
Theorem ssc_negative_scores_refuted : exists (P : problem) (x : nat -> f64),
  lt (arith64 pw0) (ssc_lin (arith64 pw0) P x 0 0) (ssc_lin (arith64 pw0) P x 1 0) = true /\
  lt (arith64 pw0) (ssc_lin (arith64 pw0) P x 2 0) (ssc_lin (arith64 pw0) P x 1 0) = true /\
  nclass P = 3%nat /\ forall fexp, predict (arith64 pw0) fexp P SSC x 0 = 0%nat.
Proof.
  exists (Problem 1 1 3 (fun _ _ => n64 1) (fun _ => 1%Z) true (n64 0) (n64 0)).
  exists (fun t => match t with O => n64 (-1) | 1%nat => n64 0 | 2%nat => n64 0 | 3%nat => n64 (-2) | 4%nat => n64 (-1) | _ => n64 (-2) end).
  split; [vm_compute; reflexivity|]. split; [vm_compute; reflexivity|]. split; [reflexivity|]. intros fexp.
  change (ssc_predict (arith64 pw0) (Problem 1 1 3 (fun _ _ => n64 1) (fun _ => 1%Z) true (n64 0) (n64 0))
    (fun t => match t with O => n64 (-1) | 1%nat => n64 0 | 2%nat => n64 0 | 3%nat => n64 (-2) | 4%nat => n64 (-1) | _ => n64 (-2) end) 0 = 0%nat).
  vm_compute. reflexivity.
Qed.
Print Assumptions ssc_negative_scores_refuted.
(** scores 800, 900 and 0 with a reference category: the exponentials overflow, the quotients are not numbers, class 0 is predicted *)
Theorem rsc_overflow_refuted : exists (P : problem) (x : nat -> f64),
  lt (arith64 pw0) (rsc_lin (arith64 pw0) P x 0 0) (rsc_lin (arith64 pw0) P x 1 0) = true /\
  lt (arith64 pw0) (zero (arith64 pw0)) (rsc_lin (arith64 pw0) P x 1 0) = true /\
  nclass P = 3%nat /\
  forall fexp, (forall v, le (arith64 pw0) (n64 710) v = true -> fexp v = B754_infinity false) ->
  predict (arith64 pw0) fexp P RSC x 0 = 0%nat.
Proof.
  exists (Problem 1 1 3 (fun _ _ => n64 1) (fun _ => 1%Z) false (n64 0) (n64 0)).
  exists (fun t => match t with O => n64 800 | _ => n64 900 end).
  split; [vm_compute; reflexivity|]. split; [vm_compute; reflexivity|]. split; [reflexivity|]. intros fexp H.
  set (P := Problem _ _ _ _ _ _ _ _). set (x := fun t : nat => _).
  assert (H0 : fexp (rsc_lin (arith64 pw0) P x 0 0) = B754_infinity false) by (apply H; vm_compute; reflexivity).
  assert (H1 : fexp (rsc_lin (arith64 pw0) P x 1 0) = B754_infinity false) by (apply H; vm_compute; reflexivity).
  unfold predict, two. cbn [nclass P Nat.eqb]. unfold rsc_predict, best_class, rsc_prob, msum, rsc_weight.
  change (nclass P) with 3%nat. cbn [seq fold_left Nat.ltb Nat.leb Nat.sub]. rewrite H0, H1.
  vm_compute. reflexivity.
Qed.
Print Assumptions rsc_overflow_refuted.

(** *** C127: the coefficients in the user's array *)
Theorem coefficients_handed_out {T : Type} (P : problem (T := T)) (c : lconstraint) : c = SSC \/ nclass P = 2%nat ->
  forall o x k j, (k < nrow_coef P c)%nat -> (j < ncol_coef P)%nat ->
  user_matrix c P o (get_coef P c o x) k j = solver_matrix c P x k j.
Proof. intros H o x k j Hk Hj. apply coefs_out; assumption. Qed.
Print Assumptions coefficients_handed_out.
Example handed_out_row_major : forall x : nat -> R, map (get_coef (lP 3) SSC RowMajor x) (seq 0 6) = [x 0%nat; x 3%nat; x 1%nat; x 4%nat; x 2%nat; x 5%nat].
Proof. reflexivity. Qed.
Theorem coefficients_taken_as_a_start {T : Type} (P : problem (T := T)) (c : lconstraint) : c = SSC \/ nclass P = 2%nat ->
  forall o u k j, (k < nrow_coef P c)%nat -> (j < ncol_coef P)%nat ->
  solver_matrix c P (start_coef P c o u) k j = user_matrix c P o u k j.
Proof. intros H o u k j Hk Hj. apply coefs_in; assumption. Qed.
Print Assumptions coefficients_taken_as_a_start.
Example taken_row_major : forall u : nat -> R, map (start_coef (lP 3) SSC RowMajor u) (seq 0 6) = [u 0%nat; u 2%nat; u 4%nat; u 1%nat; u 3%nat; u 5%nat].
Proof. reflexivity. Qed.
Theorem coefficients_round_trip {T : Type} (P : problem (T := T)) (c : lconstraint) :
  forall o x t, (t < ncoefs P c)%nat -> start_coef P c o (get_coef P c o x) t = x t.
Proof. intros o x t H. apply coefs_round_trip; assumption. Qed.
Print Assumptions coefficients_round_trip.
Example round_trip_rsc : forall x : nat -> R, start_coef (lP 3) RSC RowMajor (get_coef (lP 3) RSC RowMajor x) 2 = x 2%nat.
Proof. intros x. apply coefficients_round_trip. cbn. lia. Qed.
(** with a reference category the array is not the matrix of coefficients, in either storage order: the first entry of the
    second row is the second coefficient of the first class *)
Theorem rsc_coefficients_refuted : exists P : problem (T := R), well_formed P /\ forall o,
  (exists x k j, (k < nrow_coef P RSC)%nat /\ (j < ncol_coef P)%nat /\
    user_matrix RSC P o (get_coef P RSC o x) k j <> solver_matrix RSC P x k j) /\
  (forall x, user_matrix RSC P o (get_coef P RSC o x) 1 0 = solver_matrix RSC P x 0 1).
Proof.
  exists (lP 3). split; [apply lP_ok; lia|]. intros o. split.
  - exists INR, 1%nat, 0%nat. split; [cbn; lia|]. split; [cbn; lia|]. destruct o; cbn; lra.
  - intros x. destruct o; reflexivity.
Qed.
Print Assumptions rsc_coefficients_refuted.
