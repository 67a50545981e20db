(** Training of the support vector classifiers and regressors (C-SVM). *)
From Coq Require Import QArith Qabs List Bool Arith Lia Lqa.
From Verif Require Import SvmModel SvmSpec SvmProofs SvmSmoProofs SvmTrainProofs.
Import ListNotations.
Local Open Scope Q_scope.

(** ** C137: the working set *)
Theorem working_set_full : forall p srt, well_posed p -> sorts p srt -> (0 < size p)%nat ->
  forall n, working_set p (indices (rounds p srt (S n))) /\
            length (indices (rounds p srt (S n))) = ws_size p.
Proof. exact rounds_set. Qed.
Print Assumptions working_set_full.

Theorem working_set_extremes : forall p srt, well_posed p -> sorts p srt -> (0 < size p)%nat ->
  forall n, (3 <= ws_size p)%nat ->
  holds_extremes p (alpha (rounds p srt n)) (true_gradient p (alpha (rounds p srt n)))
    (indices (rounds p srt (S n))).
Proof. exact rounds_extremes. Qed.
Print Assumptions working_set_extremes.

(** From four variables and a working set option of three the set has room. *)
Theorem working_set_room : forall p, (4 <= size p)%nat -> (3 <= max_ws p)%nat -> (3 <= ws_size p)%nat.
Proof. exact ws_size_ge. Qed.
Print Assumptions working_set_room.

(** ** C138: every state is feasible *)
Theorem rounds_feasible : forall p srt, well_posed p -> sorts p srt -> (0 < size p)%nat ->
  forall n, feasible p (alpha (rounds p srt n)).
Proof. intros p srt W So pos n. exact (i_feas _ _ _ (rounds_inv p srt W So pos n)). Qed.
Print Assumptions rounds_feasible.

Theorem trained_is_round : forall p srt, exists n, fst (compute p srt) = rounds p srt n.
Proof. intros p srt. unfold compute. apply loop_rounds. reflexivity. Qed.
Print Assumptions trained_is_round.

Theorem trained_feasible : forall p srt, well_posed p -> sorts p srt -> (0 < size p)%nat ->
  feasible p (alpha (fst (compute p srt))).
Proof.
  intros p srt W So pos. destruct (trained_is_round p srt) as (n & ->). apply rounds_feasible; auto.
Qed.
Print Assumptions trained_feasible.

(** ** C139: the kept gradient and the dual objective *)
Theorem rounds_gradient : forall p srt, well_posed p -> sorts p srt -> (0 < size p)%nat ->
  forall n k, (k < size p)%nat -> grad (rounds p srt n) k == true_gradient p (alpha (rounds p srt n)) k.
Proof. intros p srt W So pos n. exact (i_grad _ _ _ (rounds_inv p srt W So pos n)). Qed.
Print Assumptions rounds_gradient.

Theorem rounds_descend : forall p srt, well_posed p -> sorts p srt -> (0 < size p)%nat ->
  forall n, symmetric p ->
  objective p (alpha (rounds p srt (S n))) <= objective p (alpha (rounds p srt n)).
Proof. exact rounds_objective. Qed.
Print Assumptions rounds_descend.

(** ** C140: what a return by tolerance says about the result *)
Theorem trained_gap_partial : forall p srt s, well_posed p -> sorts p srt ->
  (4 <= size p)%nat -> (3 <= max_ws p)%nat ->
  compute p srt = (s, converged) -> gap_below p (alpha s) (tol p).
Proof.
  intros p srt s W So Sz Mw E.
  assert (pos : (0 < size p)%nat) by lia.
  apply (loop_gap p srt W So pos (max_iter p) 0 (start p)); auto.
  - apply ws_size_ge; auto.
  - apply start_inv; auto.
Qed.
Print Assumptions trained_gap_partial.

Theorem trained_optimal_partial : forall p srt s, well_posed p -> sorts p srt -> psd p -> symmetric p ->
  (4 <= size p)%nat -> (3 <= max_ws p)%nat ->
  compute p srt = (s, converged) ->
  forall be, feasible p be ->
    objective p (alpha s) <= objective p be + inject_Z (Z.of_nat (size p)) * (tol p * C p).
Proof.
  intros p srt s W So Ps Sy Sz Mw E be Fb.
  pose proof (trained_gap_partial p srt s W So Sz Mw E) as G.
  apply gap_optimal; auto.
  - pose proof (trained_feasible p srt W So ltac:(lia)) as F. rewrite E in F. exact F.
  - exact (wp_tol p W).
Qed.
Print Assumptions trained_optimal_partial.

(** ** C141: the decision values at the training samples *)
Theorem margin_partial : forall p srt s b, well_posed p -> sorts p srt ->
  (4 <= size p)%nat -> (3 <= max_ws p)%nat ->
  compute p srt = (s, converged) -> set_bias p (alpha s) (grad s) = Some b ->
  forall k, (k < size p)%nat ->
  (can_rise p (alpha s) k -> - lin p k - tol p < exact_decision p (alpha s) b (kk p k)) /\
  (can_fall p (alpha s) k -> exact_decision p (alpha s) b (kk p k) < - lin p k + tol p).
Proof.
  intros p srt s b W So Sz Mw E Eb k K.
  pose proof (trained_gap_partial p srt s W So Sz Mw E) as G.
  assert (pos : (0 < size p)%nat) by lia.
  destruct (trained_is_round p srt) as (n & Rn). rewrite E in Rn. cbn [fst] in Rn.
  assert (Gr : forall k, (k < size p)%nat -> grad s k == true_gradient p (alpha s) k).
  { rewrite Rn. intros. apply rounds_gradient; auto. }
  assert (G' : forall u v, (u < size p)%nat -> (v < size p)%nat ->
     can_rise p (alpha s) u -> can_fall p (alpha s) v -> grad s v - grad s u < tol p).
  { intros u v Hu Hv Ru Fv. rewrite (Gr u Hu), (Gr v Hv). apply G; auto. }
  pose proof (bias_margin p (alpha s) (grad s) W (tol p) (wp_tol p W) G' b Eb k K) as [H1 H2].
  rewrite (Gr k K) in H1, H2. unfold true_gradient in H1, H2. unfold exact_decision.
  set (q := sum (fun m => y p m * alpha s m * kk p k m) (seq 0 (size p))) in *.
  split; intro H; [specialize (H1 H)|specialize (H2 H)]; lra.
Qed.
Print Assumptions margin_partial.

(** For a classifier: a sample whose coefficient is below C has a margin of at
    least 1 - tol, one with a positive coefficient of at most 1 + tol. *)
Theorem classifier_margin_partial : forall n k label c t ta mi mw srt s b,
  let p := svc_problem n k label c t ta mi mw in
  well_posed p -> sorts p srt -> (4 <= n)%nat -> (3 <= mw)%nat ->
  compute p srt = (s, converged) -> set_bias p (alpha s) (grad s) = Some b ->
  forall i, (i < n)%nat ->
  (alpha s i < c -> 1 - t < y p i * exact_decision p (alpha s) b (kk p i)) /\
  (0 < alpha s i -> y p i * exact_decision p (alpha s) b (kk p i) < 1 + t).
Proof.
  intros n k label c t ta mi mw srt s b p W So Sz Mw E Eb i I.
  destruct (margin_partial p srt s b W So Sz Mw E Eb i I) as [H1 H2].
  assert (L : lin p i = - y p i) by reflexivity. rewrite L in H1, H2.
  change (tol p) with t in *. change (C p) with c in *.
  unfold can_rise, can_fall in H1, H2. change (C p) with c in H1, H2.
  set (d := exact_decision p (alpha s) b (kk p i)) in *.
  destruct (wp_y p W i I) as [Y|Y]; rewrite Y in *; split; intro A.
  - specialize (H1 (or_introl (conj eq_refl A))). lra.
  - specialize (H2 (or_introl (conj eq_refl A))). lra.
  - specialize (H2 (or_intror (conj eq_refl A))). lra.
  - specialize (H1 (or_intror (conj eq_refl A))). lra.
Qed.
Print Assumptions classifier_margin_partial.

(** For a regressor: the prediction is within epsilon + tol of the target on
    each side whose coefficient is below C. *)
Theorem regressor_tube_partial : forall n k target c epsilon t ta mi mw srt s b,
  let p := svr_problem n k target c epsilon t ta mi mw in
  well_posed p -> sorts p srt -> (2 <= n)%nat -> (3 <= mw)%nat ->
  compute p srt = (s, converged) -> set_bias p (alpha s) (grad s) = Some b ->
  forall i, (i < n)%nat ->
  (alpha s i < c -> target i - (epsilon + t) < exact_decision p (alpha s) b (kk p i)) /\
  (alpha s (n + i)%nat < c -> exact_decision p (alpha s) b (kk p i) < target i + (epsilon + t)).
Proof.
  intros n k target c epsilon t ta mi mw srt s b p W So Sz Mw E Eb i I.
  assert (Z4 : (4 <= size p)%nat) by (cbn [p svr_problem size]; lia).
  assert (I1 : (i < size p)%nat) by (cbn [p svr_problem size]; lia).
  assert (I2 : (n + i < size p)%nat) by (cbn [p svr_problem size]; lia).
  destruct (margin_partial p srt s b W So Z4 Mw E Eb i I1) as [H1 _].
  destruct (margin_partial p srt s b W So Z4 Mw E Eb (n + i)%nat I2) as [_ H2].
  assert (Y1 : y p i = 1). { cbn [p svr_problem y]. destruct (i <? n)%nat eqn:X; [reflexivity|]. apply Nat.ltb_ge in X. lia. }
  assert (Y2 : y p (n + i)%nat = -(1)). { cbn [p svr_problem y]. destruct (n + i <? n)%nat eqn:X; [apply Nat.ltb_lt in X; lia|reflexivity]. }
  assert (L1 : lin p i = epsilon - target i). { cbn [p svr_problem lin]. destruct (i <? n)%nat eqn:X; [reflexivity|]. apply Nat.ltb_ge in X. lia. }
  assert (L2 : lin p (n + i)%nat = - epsilon - target i).
  { cbn [p svr_problem lin]. destruct (n + i <? n)%nat eqn:X; [apply Nat.ltb_lt in X; lia|].
    replace (n + i - n)%nat with i by lia. reflexivity. }
  assert (Kk : forall m, kk p (n + i)%nat m = kk p i m).
  { intro m. unfold kk. cbn [p svr_problem rows K]. replace (n + i)%nat with (i + 1 * n)%nat by lia.
    rewrite Nat.mod_add by lia. reflexivity. }
  rewrite L1 in H1. rewrite L2 in H2. change (tol p) with t in *.
  assert (Ex : exact_decision p (alpha s) b (kk p (n + i)%nat) == exact_decision p (alpha s) b (kk p i)).
  { unfold exact_decision. rewrite (sum_ext _ (fun m => y p m * alpha s m * kk p i m)); [reflexivity|].
    intros m _. rewrite Kk. reflexivity. }
  rewrite Ex in H2. unfold can_rise in H1. unfold can_fall in H2. change (C p) with c in *.
  split; intro A.
  - specialize (H1 (or_introl (conj Y1 A))). lra.
  - specialize (H2 (or_intror (conj Y2 A))). lra.
Qed.
Print Assumptions regressor_tube_partial.

(** Coefficients of at most [meps] are left out of the stored model; a decision
    value moves by at most [meps] times the kernel values left out. *)
Theorem stored_model_close : forall p meps al b kx, well_posed p ->
  Qabs (decision p meps al b kx - exact_decision p al b kx) <=
  meps * sum (fun k => Qabs (kx k)) (filter (fun k => negb (is_sv meps al k)) (seq 0 (size p))).
Proof. exact dropped_bound. Qed.
Print Assumptions stored_model_close.

(** The bias is a number whenever both classes are present. *)
Theorem bias_exists : forall p srt, well_posed p -> sorts p srt ->
  (exists a, (a < size p)%nat /\ y p a = 1) -> (exists c, (c < size p)%nat /\ y p c = -(1)) ->
  exists b, set_bias p (alpha (fst (compute p srt))) (grad (fst (compute p srt))) = Some b.
Proof.
  intros p srt W So A B. apply bias_defined; auto. apply trained_feasible; auto.
  destruct A as (a & A & _). lia.
Qed.
Print Assumptions bias_exists.

(* Examples meeting the hypotheses above are in SvmRunTheorems.v. *)
