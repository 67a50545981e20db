(** Coordinate descent for the elastic net: theorems. *)
From Coq Require Import ZArith List Bool Reals Lra Lia.
From Flocq Require Import BinarySingleNaN.
From Verif Require Import Base F64 NnModel RealArith CdModel CdSpec CdProofs KmTheorems.
Import ListNotations.
Local Open Scope R_scope.

(** *** A concrete problem: two features that are not orthogonal, three samples, both penalties *)
Definition eX : list (list R) := [[1; -1; 0]; [2; -1; -1]].
Definition ey : list R := [3; -1; -2].
Definition exv : list R := [2; 6].
Definition exs : list R := [2 / 3; 2].
Ltac col j := destruct j as [|[|j]]; [| |cbn in *; lia].
Lemma e_shaped : shaped eX ey. Proof. split; [discriminate|repeat constructor]. Qed.
Lemma e_norms sc : sc <> Standardize -> norms sc eX ey exv.
Proof. intros Ns. split; [reflexivity|]. intros j Hj. destruct sc; try congruence; col j; cbn; lra. Qed.
Lemma e_norms_std : norms Standardize eX ey exs.
Proof. split; [reflexivity|]. intros j Hj. col j; cbn; lra. Qed.
Lemma e_divisible sc xv : (xv = exv \/ xv = exs) -> divisible sc (1 / 4) eX xv.
Proof. intros [-> | ->]; destruct sc; cbn; auto; intros j Hj; col j; cbn; lra. Qed.
Lemma e_centred : centred eX ey.
Proof. split; [cbn; lra|]. intros j Hj. col j; cbn; lra. Qed.

(** *** C109: a step minimises the cost in its coordinate *)
Theorem step_minimises_the_coordinate (X : list (list R)) (y xv : list R) (l1 l2 : R) (icept : bool) (sc : scaling) :
  shaped X y -> 0 <= l1 -> 0 <= l2 -> norms sc X y xv -> divisible sc l2 X xv -> icept_ok sc icept X y ->
  forall action kdiff coef r k, length coef = ncoef X icept -> (k < ncoef X icept)%nat -> (0 < action)%Z ->
  forall t,
    cost (factor sc y) X y icept l1 l2 (replaced coef k (fst (step arithR X y xv l1 l2 icept sc action kdiff coef r k)))
    <= cost (factor sc y) X y icept l1 l2 (replaced coef k t).
Proof. intros Sh L1 L2 Nm Dv Ic a kd coef r k Hc Hk Ha t. apply step_minimises; assumption. Qed.
Print Assumptions step_minimises_the_coordinate.
(** every scaling meets the hypotheses, with an intercept *)
Example step_minimises_none : forall t,
  cost (factor ScNone ey) eX ey true (1 / 2) (1 / 4) (replaced [1; 5; 0] 1 (fst (step arithR eX ey exv (1 / 2) (1 / 4) true ScNone 1 0 [1; 5; 0] [] 1)))
  <= cost (factor ScNone ey) eX ey true (1 / 2) (1 / 4) (replaced [1; 5; 0] 1 t).
Proof.
  intros t. apply step_minimises_the_coordinate; try lra; try (cbn; lia); try reflexivity;
    first [exact e_shaped|apply e_norms; discriminate|apply e_divisible; auto|intros _; exact e_centred].
Qed.
Example step_minimises_standardize : forall t,
  cost (factor Standardize ey) eX ey true (1 / 2) (1 / 4) (replaced [1; 5; 7] 2 (fst (step arithR eX ey exs (1 / 2) (1 / 4) true Standardize 1 0 [1; 5; 7] [] 2)))
  <= cost (factor Standardize ey) eX ey true (1 / 2) (1 / 4) (replaced [1; 5; 7] 2 t).
Proof.
  intros t. apply step_minimises_the_coordinate; try lra; try (cbn; lia); try reflexivity;
    first [exact e_shaped|exact e_norms_std|apply e_divisible; auto|intros _; exact Logic.I].
Qed.

(** *** C110: coefficients that no step changes are a minimiser *)
Theorem fixed_point_minimises (X : list (list R)) (y xv : list R) (l1 l2 : R) (icept : bool) (sc : scaling) :
  shaped X y -> 0 <= l1 -> 0 <= l2 -> norms sc X y xv -> divisible sc l2 X xv -> icept_ok sc icept X y ->
  forall coef kdiff r, length coef = ncoef X icept ->
  (forall k, (k < ncoef X icept)%nat -> fst (step arithR X y xv l1 l2 icept sc 1 kdiff coef r k) = nth k coef 0) ->
  forall coef', length coef' = ncoef X icept -> cost (factor sc y) X y icept l1 l2 coef <= cost (factor sc y) X y icept l1 l2 coef'.
Proof. intros Sh L1 L2 Nm Dv Ic coef kd r Hc. apply (fixed_point_min X y xv l1 l2 icept sc Sh L1 L2 Nm Dv Ic coef kd r Hc). Qed.
Print Assumptions fixed_point_minimises.

(** decide comparisons of numbers *)
Ltac decide_R :=
  repeat match goal with
  | |- context [Rltb ?a ?b] => first [ replace (Rltb a b) with true by (symmetry; apply Rltb_true; lra)
                                     | replace (Rltb a b) with false by (symmetry; apply Rltb_false; lra) ]
  | |- context [Rleb ?a ?b] => first [ replace (Rleb a b) with true by (symmetry; unfold Rleb; destruct (Rle_dec a b); [reflexivity|exfalso; lra])
                                     | replace (Rleb a b) with false by (symmetry; unfold Rleb; destruct (Rle_dec a b); [exfalso; lra|reflexivity]) ]
  | |- context [Rabs ?a] => first [ rewrite (Rabs_pos_eq a) by lra | rewrite (Rabs_left a) by lra ]
  end.
Ltac run_R := unfold zero; cbn; repeat (progress decide_R; cbn).

(** one feature, the minimiser 3/4 *)
Example fixed_point_example : forall coef', length coef' = 1%nat ->
  cost (factor ScNone [1; -1]) [[1; -1]] [1; -1] false (1 / 4) 0 [3 / 4] <= cost (factor ScNone [1; -1]) [[1; -1]] [1; -1] false (1 / 4) 0 coef'.
Proof.
  apply (fixed_point_minimises [[1; -1]] [1; -1] [2] (1 / 4) 0 false ScNone) with (kdiff := 0) (r := []); try lra; try reflexivity; try exact Logic.I.
  - split; [discriminate|repeat constructor].
  - split; [reflexivity|]. intros j Hj. destruct j; [|cbn in *; lia]. cbn. lra.
  - intros Q. discriminate.
  - intros k Hk. destruct k; [|cbn in *; lia]. unfold step, glmnet, sk_step, sk_new, sk_sign, eqz, tmax, cd_dot, residual, matvec, add_col, cd_axpy, at_, ns. run_R. lra.
Qed.

(** *** C111: the run never returns coefficients with a higher cost than the start *)
Theorem descent_never_worse (X : list (list R)) (y xv : list R) (l1 l2 : R) (icept : bool) (sc : scaling) :
  shaped X y -> 0 <= l1 -> 0 <= l2 -> norms sc X y xv -> divisible sc l2 X xv -> icept_ok sc icept X y ->
  forall (o : cd_opts) start fuel q, length start = ncoef X icept -> (0 < ncoef X icept)%nat -> 0 <= o_eps o ->
  (sc = ScNone \/ sc = Centering -> o_eps o = 0) ->
  coordinate_descent arithR X y xv l1 l2 icept sc o fuel start = Finished q ->
  length (r_x q) = ncoef X icept /\ cost (factor sc y) X y icept l1 l2 (r_x q) <= cost (factor sc y) X y icept l1 l2 start.
Proof.
  intros Sh L1 L2 Nm Dv Ic o start fuel q Hl Hn He Hz E.
  assert (Hz' : uses_xv sc = false -> o_eps o = 0) by (intros U; apply Hz; destruct sc; try discriminate; auto).
  destruct (run_fine X y xv l1 l2 icept sc Sh L1 L2 Nm Dv Ic o start Hl He Hz' Hn fuel q E) as [A [B _]]. split; assumption.
Qed.
Print Assumptions descent_never_worse.

(** *** C112, C113: in exact arithmetic and with scaling "none" or "centering", what the run reports is true of what it returns *)
Theorem report_is_true_partial (X : list (list R)) (y xv : list R) (l1 l2 : R) (icept : bool) (sc : scaling) :
  sc = ScNone \/ sc = Centering ->
  shaped X y -> 0 <= l1 -> 0 <= l2 -> norms sc X y xv -> icept_ok sc icept X y ->
  forall (o : cd_opts) start fuel q, length start = ncoef X icept -> (0 < ncoef X icept)%nat -> o_eps o = 0 ->
  (icept = true -> nth (length X) start 0 = 0) ->
  coordinate_descent arithR X y xv l1 l2 icept sc o fuel start = Finished q ->
  (* the optimality measure bounds the distance to the minimum *)
  (forall coef, length coef = ncoef X icept ->
     cost (factor sc y) X y icept l1 l2 (r_x q) <= cost (factor sc y) X y icept l1 l2 coef + r_gap q) /\
  (* a run that reports convergence has met its tolerance *)
  (r_exit q = Converged -> r_gap q <= o_optim o) /\
  (* the objective reported is the cost *)
  (r_exit q <> SlowProgress -> r_f q = Some (cost (factor sc y) X y icept l1 l2 (r_x q))).
Proof.
  intros Hs Sh L1 L2 Nm Ic o start fuel q Hl Hn Ez Z0 E.
  assert (U : uses_xv sc = false) by (destruct Hs as [-> | ->]; reflexivity).
  assert (Dv : divisible sc l2 X xv) by (destruct Hs as [-> | ->]; exact Logic.I).
  destruct (converged_near X y xv l1 l2 icept sc Sh L1 L2 Nm Dv Ic o start fuel q Hl Hn U Ez Z0 E) as [A [B [D F]]].
  rewrite <- B in A. auto.
Qed.
Print Assumptions report_is_true_partial.

(** a run that meets the hypotheses of C111 and C112: from 0 to the minimiser 3/4 *)
Definition e_opts : cd_opts := CdOpts (1 / 8192) (1 / 1048576) (1 / 8192) 2 100 (2 ^ 31 - 1) 100 0 (9999 / 10000).
Lemma e_step : call_step arithR [[1; -1]] [1; -1] [2] (1 / 4) 0 false ScNone (rci_start arithR e_opts [0]) (map (fun _ => zero arithR) [1; -1]) = (3 / 4, [1 / 4; - 1 / 4]).
Proof.
  unfold call_step, step, glmnet, sk_step, sk_new, sk_sign, eqz, tmax, cd_dot, residual, matvec, add_col, cd_axpy, at_, ns. run_R.
  repeat (f_equal; try lra).
Qed.
Definition e_s0 := rci_start arithR e_opts [0].
Lemma e_eval : exists kd inorm beta sk sm smin, rci_eval arithR e_opts e_s0 (3 / 4) = Some (Rci [3 / 4] 0 (-1) kd 1 inorm beta sk sm smin TOptim).
Proof.
  unfold rci_eval, e_s0, rci_start, tmax, eqz, at_, e_opts. cbn -[Z.pow Z.modulo]. run_R. repeat eexists.
Qed.
Lemma e_gap : dual_gap arithR [[1; -1]] [1; -1] (1 / 4) 0 [3 / 4] [1 / 4; - 1 / 4] = 0.
Proof.
  unfold dual_gap, gap_factor, tmax, cd_dot, ns. run_R. lra.
Qed.
Example run_in_R : exists q, coordinate_descent arithR [[1; -1]] [1; -1] [2] (1 / 4) 0 false ScNone e_opts 10 [0] = Finished q /\
  r_exit q = Converged /\ r_x q = [3 / 4] /\ r_gap q = 0.
Proof.
  unfold coordinate_descent, cd_first. rewrite e_step. cbn [fst snd]. destruct e_eval as [kd [inorm [beta [sk [sm [smin E]]]]]].
  fold e_s0. cbn [turns]. unfold turn at 1. cbn [c_task d_s e_s0 rci_start d_new]. fold e_s0. rewrite E. cbn [c_task d_r d_gap d_old d_checks d_at d_slow].
  unfold turn, measure, rci_optim. cbn [d_s d_gap c_x c_k c_task d_r d_at d_old d_checks d_new d_slow]. rewrite e_gap.
  replace (le arithR 0 (o_optim e_opts)) with true.
  - cbn [d_at d_old d_checks d_new d_slow c_action c_kdiff c_iter c_inorm c_beta c_skip c_max c_min].
   eexists. split; [reflexivity|]. cbn. auto.
  - symmetry. cbn. unfold Rleb. destruct (Rle_dec 0 (1 / 1048576)); [reflexivity|exfalso; lra].
Qed.

Lemma e1_shaped : shaped [[1; -1]] [1; -1]. Proof. split; [discriminate|repeat constructor]. Qed.
Lemma e1_norms : norms ScNone [[1; -1]] [1; -1] [2].
Proof. split; [reflexivity|]. intros j Hj. destruct j; [|cbn in *; lia]. cbn. lra. Qed.
Lemma e1_quarter : 0 <= 1 / 4. Proof. lra. Qed.
Example run_meets_the_hypotheses : exists q, coordinate_descent arithR [[1; -1]] [1; -1] [2] (1 / 4) 0 false ScNone e_opts 10 [0] = Finished q /\
  forall coef, length coef = 1%nat ->
    cost (factor ScNone [1; -1]) [[1; -1]] [1; -1] false (1 / 4) 0 [3 / 4] <= cost (factor ScNone [1; -1]) [[1; -1]] [1; -1] false (1 / 4) 0 coef + 0.
Proof.
  destruct run_in_R as [q [E [_ [Ex Eg]]]]. exists q. split; [exact E|].
  assert (Hn : (0 < ncoef ([[1; -1]]%R) false)%nat) by (clear; cbn; lia).
  destruct (report_is_true_partial [[1; -1]] [1; -1] [2] (1 / 4) 0 false ScNone (or_introl eq_refl) e1_shaped e1_quarter (Rle_refl 0) e1_norms
              ltac:(discriminate) e_opts [0] 10%nat q eq_refl Hn eq_refl ltac:(discriminate) E) as [A _].
  rewrite Ex, Eg in A. exact A.
Qed.

(** *** C112: the same claim for "standardize", refuted in double precision.  The dual gap is computed with the residual before
    the last step: the run reports convergence, with a negative gap, for coefficients whose cost is not within the tolerance *)
Definition c64 (l : list Z) : list f64 := map n64 l.
Definition opts64 (tol gap : f64) (maxit : Z) : cd_opts :=
  CdOpts tol gap tol 2 100 (2 ^ 31 - 1) maxit (dy 1 51) (f64_div (n64 9999) (n64 10000)).
Definition sX : list (list Z) := [[1; 1; 1; 1; -1; -1; -1; -1]; [-1; -1; -1; 1; -1; 1; 1; 1]]%Z.
Definition sy : list Z := [0; 0; 1; 2; -1; -1; -1; 0]%Z.
Theorem standardize_convergence_refuted :
  (exists f it, shown B2SF (coordinate_descent (arith64 pw0) (map c64 sX) (c64 sy) (c64 [1; 1]%Z) (dy 9 5) (n64 0) false Standardize
                       (opts64 (dy 1 3) (dy 1 20) 100) 1000 [dy 1 1; dy 1 4]) =
     Some (Converged, [B2SF (dy 1 1); B2SF (n64 0)], Some f, B2SF (dy (-3) 8), it)) /\
  norms Standardize (map (map IZR) sX) (map IZR sy) [1; 1] /\
  cost (factor Standardize (map IZR sy)) (map (map IZR) sX) (map IZR sy) false (9 / 32) 0 [15 / 32; 0] + 1 / 1048576 <
  cost (factor Standardize (map IZR sy)) (map (map IZR) sX) (map IZR sy) false (9 / 32) 0 [1 / 2; 0].
Proof.
  split; [|split].
  - exists (SpecFloat.S754_finite false 6790583813144576 (-54)), 1%Z. vm_compute. reflexivity.
  - split; [reflexivity|]. intros j Hj. col j; cbn; lra.
  - unfold cost, sse, factor, fitted, elem, Sigma. cbn. rewrite !Rabs_pos_eq by lra. lra.
Qed.
Print Assumptions standardize_convergence_refuted.

(** *** C112: a change below twice the machine epsilon is dropped from the coefficient but not from the residual: scaling "none",
    a feature of magnitude 2^60, convergence reported with objective 0 and gap 0 where the cost is 1/2 *)
Theorem small_step_convergence_refuted :
  shown B2SF (coordinate_descent (arith64 pw0) [[n64 (2 ^ 60)]] [n64 1] [n64 (2 ^ 120)] (n64 0) (n64 0) false ScNone
                (opts64 (dy 1 13) (dy 1 20) 100) 1000 [n64 0]) =
    Some (Converged, [B2SF (n64 0)], Some (B2SF (n64 0)), B2SF (n64 0), 1%Z) /\
  norms ScNone [[IZR (2 ^ 60)]] [1] [IZR (2 ^ 120)] /\
  cost (factor ScNone [1]) [[IZR (2 ^ 60)]] [1] false 0 0 [0] = 1 / 2 /\
  cost (factor ScNone [1]) [[IZR (2 ^ 60)]] [1] false 0 0 [/ IZR (2 ^ 60)] = 0.
Proof.
  split; [vm_compute; reflexivity|]. assert (P : IZR (2 ^ 60) <> 0) by (apply IZR_neq; discriminate). split; [|split].
  - split; [reflexivity|]. intros j Hj. destruct j; [|cbn in *; lia]. cbn [nth]. unfold Sigma, elem. cbn [length seq map fold_right nth].
    replace (2 ^ 120)%Z with (2 ^ 60 * 2 ^ 60)%Z by reflexivity. rewrite mult_IZR. ring.
  - unfold cost, sse, factor, fitted, elem, Sigma. cbn [length seq map fold_right nth]. rewrite Rabs_R0. cbn [INR]. field.
  - unfold cost, sse, factor, fitted, elem, Sigma. cbn [length seq map fold_right nth INR]. field. exact P.
Qed.
Print Assumptions small_step_convergence_refuted.

(** *** C113: objective and optimality reported after the iteration limit ("standardize"): both are those of the start *)
Theorem standardize_report_refuted :
  shown B2SF (coordinate_descent (arith64 pw0) [c64 [1; -1]%Z] (c64 [1; -1]%Z) (c64 [1]%Z) (dy 1 1) (n64 0) false Standardize
                (opts64 (dy 1 13) (dy 1 20) 1) 1000 [n64 0]) =
    Some (IterationLimit, [B2SF (dy 1 1)], Some (B2SF (dy 3 2)), B2SF (dy 3 3), 1%Z) /\
  cost (factor Standardize [1; -1]) [[1; -1]] [1; -1] false (1 / 2) 0 [1 / 2] = 3 / 8.
Proof.
  split; [vm_compute; reflexivity|]. unfold cost, sse, factor, fitted, elem, Sigma. cbn. rewrite Rabs_pos_eq by lra. lra.
Qed.
Print Assumptions standardize_report_refuted.

(** *** C114: without a penalty the dual gap is the objective itself unless every feature is exactly orthogonal to the residual *)
Theorem unpenalised_gap_is_the_objective (X : list (list R)) (y : list R) (icept : bool) :
  shaped X y -> forall coef, length coef = ncoef X icept ->
  (exists j, (j < length X)%nat /\ Sigma (length y) (fun i => elem X j i * (nth i y 0 - fitted X icept coef i)) <> 0) ->
  dual_gap arithR X y 0 0 coef (residual arithR X y icept coef) = cost (/ (2 * INR (length y))) X y icept 0 0 coef.
Proof. exact (unpenalised_gap X y icept). Qed.
Print Assumptions unpenalised_gap_is_the_objective.
Example unpenalised_gap_example : dual_gap arithR [[1; 3]] [1; 1] 0 0 [1] (residual arithR [[1; 3]] [1; 1] false [1]) = 1.
Proof.
  rewrite unpenalised_gap_is_the_objective.
  - unfold cost, sse, fitted, elem, Sigma. cbn. lra.
  - split; [discriminate|repeat constructor].
  - reflexivity.
  - exists 0%nat. split; [cbn; lia|]. unfold fitted, elem, Sigma. cbn. lra.
Qed.
(** rounding keeps the product away from 0: the least-squares problem with solution 2/5 stops for slow progress, with an objective
    that was never computed, and fit returns success *)
Theorem least_squares_convergence_refuted :
  shown B2SF (coordinate_descent (arith64 pw0) [c64 [1; 3]%Z] (c64 [1; 1]%Z) (c64 [10]%Z) (n64 0) (n64 0) false ScNone
                (opts64 (dy 1 13) (dy 1 20) 100) 1000 [n64 0]) =
    Some (SlowProgress, [B2SF (f64_div (n64 2) (n64 5))], None, SpecFloat.S754_finite false 7205759403792795 (-56), 11%Z) /\
  norms ScNone [[1; 3]] [1; 1] [10] /\ fit_status SlowProgress = st_success.
Proof.
  split; [vm_compute; reflexivity|]. split; [|reflexivity]. split; [reflexivity|]. intros j Hj. destruct j; [|cbn in *; lia]. cbn. lra.
Qed.
Print Assumptions least_squares_convergence_refuted.

(** *** C115: success means a minimiser.  With scaling "none" and an intercept the step for the intercept divides by 1 instead of
    the number of samples: y = 2 - x is answered with coefficient -1 and intercept 4 *)
Theorem intercept_without_scaling_refuted :
  shown B2SF (coordinate_descent (arith64 pw0) [c64 [1; -1]%Z] (c64 [1; 3]%Z) (c64 [2]%Z) (n64 0) (n64 0) true ScNone
                (opts64 (dy 1 13) (dy 1 20) 100) 1000 (c64 [0; 0]%Z)) =
    Some (SlowProgress, [B2SF (n64 (-1)); B2SF (n64 4)], None, B2SF (n64 8), 12%Z) /\
  fit_status SlowProgress = st_success /\ norms ScNone [[1; -1]] [1; 3] [2] /\
  cost (factor ScNone [1; 3]) [[1; -1]] [1; 3] true 0 0 [-1; 4] = 2 /\
  cost (factor ScNone [1; 3]) [[1; -1]] [1; 3] true 0 0 [-1; 2] = 0.
Proof.
  split; [vm_compute; reflexivity|]. split; [reflexivity|]. split; [|split].
  - split; [reflexivity|]. intros j Hj. destruct j; [|cbn in *; lia]. cbn. lra.
  - unfold cost, sse, factor, fitted, elem, Sigma. cbn. lra.
  - unfold cost, sse, factor, fitted, elem, Sigma. cbn. lra.
Qed.
Print Assumptions intercept_without_scaling_refuted.

(** *** C114: "scale only".  The gap multiplies the penalty by the number of samples though the data are already divided by its
    root: at the minimiser it is 3/16, so the run ends for slow progress and the objective is left infinite *)
Theorem scale_only_convergence_refuted :
  shown B2SF (coordinate_descent (arith64 pw0) [c64 [1; -1]%Z] (c64 [1; -1]%Z) (c64 [2]%Z) (dy 1 1) (n64 0) false ScaleOnly
                (opts64 (dy 1 13) (dy 1 20) 100) 1000 (c64 [0]%Z)) =
    Some (SlowProgress, [B2SF (dy 3 2)], None, B2SF (dy 3 4), 12%Z) /\
  forall coef', length coef' = 1%nat ->
    cost (factor ScaleOnly [1; -1]) [[1; -1]] [1; -1] false (1 / 2) 0 [3 / 4] <= cost (factor ScaleOnly [1; -1]) [[1; -1]] [1; -1] false (1 / 2) 0 coef'.
Proof.
  split; [vm_compute; reflexivity|].
  apply (fixed_point_minimises [[1; -1]] [1; -1] [2] (1 / 2) 0 false ScaleOnly) with (kdiff := 0) (r := []); try lra; try reflexivity; try exact Logic.I.
  - split; [discriminate|repeat constructor].
  - split; [reflexivity|]. intros j Hj. destruct j; [|cbn in *; lia]. cbn. lra.
  - intros j Hj. destruct j; [|cbn in *; lia]. cbn. lra.
  - intros Q. discriminate.
  - intros k Hk. destruct k; [|cbn in *; lia]. unfold step, glmnet, glm_step, glm_update, glm_new, shrink, cd_dot, residual, matvec, cd_axpy, at_, ns. run_R. lra.
Qed.
Print Assumptions scale_only_convergence_refuted.
