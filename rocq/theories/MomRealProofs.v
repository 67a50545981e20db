(** The statistics in exact arithmetic. *)
From Coq Require Import ZArith List Bool Permutation Reals Rpower Lia Lra Psatz.
From Verif Require Import Base NnModel RealArith MomModel MomSpec MomProofs.
Import ListNotations.
Local Open Scope R_scope.

Notation tot := (total Rplus 0).

Lemma is0_R x : is0 arithR x = true <-> x = 0.
Proof.
  unfold is0. cbn. unfold Rleb. destruct (Rle_dec x 0), (Rle_dec 0 x); cbn; split; intros; try discriminate; auto; try lra.
Qed.
Lemma is0_R_dec x : (is0 arithR x = true /\ x = 0) \/ (is0 arithR x = false /\ x <> 0).
Proof.
  destruct (is0 arithR x) eqn:E; [left|right]; split; auto; [apply is0_R; auto|]. intros C. apply is0_R in C. congruence.
Qed.

Lemma dsum_R t o ax m n ldx val k : good_team t -> good_dims o m n ldx -> is_result ax m n k ->
  dsum arithR t o ax m n ldx val k = slice_total Rplus 0 o ax m n ldx (val k) k.
Proof. intros. unfold dsum. apply da_sum_total; auto; intros; cbn; ring. Qed.

Lemma tot_lin f c d n : tot (fun i => c * f i + d) n = c * tot f n + INR n * d.
Proof. induction n as [|n IH]; [cbn; ring|]. cbn [total]. rewrite IH, S_INR. ring. Qed.
Lemma tot_nonneg f n : (forall i, (0 <= i < Z.of_nat n)%Z -> 0 <= f i) -> 0 <= tot f n.
Proof.
  induction n as [|n IH]; intros H; cbn [total]; [lra|].
  assert (0 <= tot f n) by (apply IH; intros; apply H; lia). specialize (H (Z.of_nat n) ltac:(lia)). lra.
Qed.

Section Slice.
Variables (o : order) (ax : axis) (m n ldx : Z).
Hypothesis dims : good_dims o m n ldx.
Notation slice := (slice_total Rplus 0 o ax m n ldx).

Lemma slice_ext {T} (ad : T -> T -> T) ze f g k : is_result ax m n k -> (forall a, behind o ax m n ldx k a -> f a = g a) ->
  slice_total ad ze o ax m n ldx f k = slice_total ad ze o ax m n ldx g k.
Proof.
  intros Hk H. destruct dims as (Hm & Hn & _). unfold slice_total, is_result in *. destruct ax.
  - apply tot_ext. intros r Hr. apply H. exists r, k. repeat split; lia || auto.
  - apply tot_ext. intros c Hc. apply H. exists k, c. repeat split; lia || auto.
  - apply tot_ext. intros r Hr. apply tot_ext. intros c Hc. apply H. exists r, c. repeat split; lia || auto.
Qed.
Lemma nobs_pos : (1 <= nobs ax m n)%Z.
Proof. destruct dims as (Hm & Hn & _). unfold nobs. destruct ax; nia. Qed.
Lemma nobs_R : 0 < IZR (nobs ax m n).
Proof. apply IZR_lt. pose proof nobs_pos. lia. Qed.
Lemma slice_lin f c d k : slice (fun a => c * f a + d) k = c * slice f k + IZR (nobs ax m n) * d.
Proof.
  destruct dims as (Hm & Hn & _). unfold slice_total, nobs. destruct ax.
  - rewrite (tot_lin (fun r => f (entry o ldx r k))), INR_IZR_INZ, Z2Nat.id by lia. reflexivity.
  - rewrite (tot_lin (fun r => f (entry o ldx k r))), INR_IZR_INZ, Z2Nat.id by lia. reflexivity.
  - rewrite (tot_ext _ _ _ (fun r => c * tot (fun c0 => f (entry o ldx r c0)) (Z.to_nat n) + IZR n * d)).
    + rewrite tot_lin, INR_IZR_INZ, Z2Nat.id, mult_IZR by lia. ring.
    + intros r Hr. rewrite (tot_lin (fun c0 => f (entry o ldx r c0))), INR_IZR_INZ, Z2Nat.id by lia. reflexivity.
Qed.
Lemma slice_scal f c k : slice (fun a => c * f a) k = c * slice f k.
Proof.
  transitivity (slice (fun a => c * f a + 0) k); [|rewrite slice_lin; ring].
  unfold slice_total. destruct ax; repeat (apply tot_ext; intros); ring.
Qed.
Lemma slice_nonneg f k : (forall a, 0 <= f a) -> 0 <= slice f k.
Proof. intros H. unfold slice_total. destruct ax; apply tot_nonneg; intros; auto. apply tot_nonneg; auto. Qed.
Lemma slice_single k : is_result ax m n k -> nobs ax m n = 1%Z -> exists a, forall f, slice f k = f a.
Proof.
  intros Hk N1. destruct dims as (Hm & Hn & _). unfold nobs, slice_total, is_result in *.
  destruct ax.
  - subst m. exists (entry o ldx 0 k). intros f. cbn. rewrite ?Pos2Nat.inj_1. cbn. ring.
  - subst n. exists (entry o ldx k 0). intros f. cbn. rewrite ?Pos2Nat.inj_1. cbn. ring.
  - assert (m = 1%Z /\ n = 1%Z) as (E1 & E2) by nia. exists (entry o ldx 0 0). intros f. rewrite E1, E2.
    change (Z.to_nat 1) with 1%nat. cbn [total]. ring_simplify. reflexivity.
Qed.

Variable t : team.
Hypothesis team_ok : good_team t.

Lemma divisor_nobs : divisor ax m n = nobs ax m n.
Proof. reflexivity. Qed.

Lemma mean_R X k : is_result ax m n k -> mean arithR t o ax m n X ldx k = Rmean o ax m n ldx X k.
Proof. intros Hk. unfold mean. rewrite dsum_R by auto. reflexivity. Qed.

Lemma square_sums_R X c k : is_result ax m n k ->
  square_sums arithR t o ax m n X ldx c k = sum_of o ax m n ldx (fun x => (x - c k) ^ 2) X k.
Proof.
  intros Hk. unfold square_sums. rewrite dsum_R by auto. unfold sum_of. apply slice_ext; auto. intros a _.
  unfold square_term. cbn. ring.
Qed.

Lemma odd_half e : (0 < e)%Z -> (e = 2 * (e / 2) + (if Z.odd e then 1 else 0))%Z.
Proof. intros. rewrite <- Zmod_odd. apply Z.div_mod. lia. Qed.
Lemma power_loop_R : forall fuel e b r, (0 <= e <= Z.of_nat fuel)%Z -> power_loop arithR fuel e b r = r * b ^ Z.to_nat e.
Proof.
  induction fuel as [|fuel IH]; intros e b r He; cbn [power_loop].
  - replace e with 0%Z by lia. cbn. ring.
  - destruct (Z.ltb_spec 0 e) as [L|L]; [|replace e with 0%Z by lia; cbn; ring].
    pose proof (odd_half e L) as D. assert (0 <= e / 2)%Z by (apply Z.div_pos; lia).
    rewrite IH by (destruct (Z.odd e); lia).
    replace (Z.to_nat e) with (2 * Z.to_nat (e / 2) + (if Z.odd e then 1 else 0))%nat by (destruct (Z.odd e); lia).
    rewrite pow_add, pow_mult. cbn [mul arithR]. replace (b ^ 2) with (b * b) by ring.
    destruct (Z.odd e); cbn; ring.
Qed.
Lemma power_R a e : (0 <= e)%Z -> power arithR a e = a ^ Z.to_nat e.
Proof. intros. unfold power. rewrite power_loop_R by lia. cbn. ring. Qed.

Lemma power_sums_R X c j k : is_result ax m n k -> (0 <= j)%Z ->
  power_sums arithR t o ax m n X ldx c j k = sum_of o ax m n ldx (fun x => (x - c k) ^ Z.to_nat j) X k.
Proof.
  intros Hk Hj. unfold power_sums. rewrite dsum_R by auto. unfold sum_of. apply slice_ext; auto. intros a _.
  unfold power_term. rewrite power_R by auto. reflexivity.
Qed.
Lemma sum_of_ext g h X k : (forall x, g x = h x) -> sum_of o ax m n ldx g X k = sum_of o ax m n ldx h X k.
Proof. intros H. unfold sum_of, slice_total. destruct ax; repeat (apply tot_ext; intros); auto. Qed.

Lemma moment_R X j given k : is_result ax m n k -> (0 <= j)%Z ->
  moment arithR t o ax m n X ldx j given k =
  sum_of o ax m n ldx (fun x => (x - match given with Some c => c k | None => Rmean o ax m n ldx X k end) ^ Z.to_nat j) X k
    / IZR (nobs ax m n).
Proof.
  intros Hk Hj. unfold moment. rewrite divisor_nobs. cbn [div arithR of_Z].
  assert (E : match given with Some c => c | None => mean arithR t o ax m n X ldx end k =
    match given with Some c => c k | None => Rmean o ax m n ldx X k end) by (destruct given; [reflexivity|apply mean_R; auto]).
  rewrite <- E. f_equal. destruct (Z.eqb_spec j 2) as [->|_]; [rewrite square_sums_R|rewrite power_sums_R]; auto.
Qed.

Lemma square_sum_nonneg X c k : 0 <= sum_of o ax m n ldx (fun x => (x - c) ^ 2) X k.
Proof. unfold sum_of. apply slice_nonneg. intros a. apply pow2_ge_0. Qed.
Lemma degrees_pos dof : (0 <= degrees ax m n dof)%Z.
Proof. unfold degrees. pose proof nobs_pos. destruct (Z.ltb_spec dof 0); [lia|]. destruct (Z.eqb_spec dof 0); lia. Qed.
Lemma Rvariance_nonneg X dof k : 0 <= Rvariance o ax m n ldx X dof k.
Proof.
  unfold Rvariance. pose proof (degrees_pos dof). destruct (Z.eqb_spec (degrees ax m n dof) 0); [lra|].
  apply Rmult_le_pos; [apply square_sum_nonneg|]. apply Rlt_le, Rinv_0_lt_compat, IZR_lt. lia.
Qed.
Lemma degrees_zero dof : degrees ax m n dof = 0%Z -> nobs ax m n = 1%Z.
Proof. unfold degrees. pose proof nobs_pos. destruct (Z.ltb_spec dof 0); [lia|]. destruct (Z.eqb_spec dof 0); lia. Qed.

Lemma variance_R X dof k : is_result ax m n k ->
  fst (variance arithR t o ax m n X ldx dof) k = Rmean o ax m n ldx X k /\
  snd (variance arithR t o ax m n X ldx dof) k = Rvariance o ax m n ldx X dof k.
Proof.
  intros Hk. unfold variance. cbn [fst snd]. rewrite divisor_nobs. split; [apply mean_R; auto|].
  rewrite square_sums_R by auto. rewrite mean_R by auto. unfold Rvariance.
  change (scale_factor dof (nobs ax m n)) with (degrees ax m n dof).
  pose proof (degrees_pos dof).
  destruct (Z.ltb_spec 1 (degrees ax m n dof)) as [L|L].
  - destruct (Z.eqb_spec (degrees ax m n dof) 0); [lia|]. reflexivity.
  - destruct (Z.eqb_spec (degrees ax m n dof) 0) as [E|E].
    + pose proof (degrees_zero dof E) as E1. destruct (slice_single k Hk E1) as [a Ha].
      unfold sum_of. rewrite Ha. unfold Rmean, sum_of. rewrite Ha, E1. cbn. field.
    + replace (degrees ax m n dof) with 1%Z by lia. field.
Qed.

Lemma Rpower_three_halves x : 0 < x -> Rpower x (3 / 2) = x * R_sqrt.sqrt x.
Proof.
  intros. replace (3 / 2) with (1 + / 2) by lra. rewrite Rpower_plus, Rpower_1, Rpower_sqrt; auto.
Qed.
Lemma sqrt_frac a b : 0 < a -> 0 < b -> R_sqrt.sqrt (a / b) = R_sqrt.sqrt a / R_sqrt.sqrt b.
Proof. intros. apply sqrt_div_alt. auto. Qed.

Lemma central2 X k : sum_of o ax m n ldx (fun x => (x - Rmean o ax m n ldx X k) ^ 2) X k = IZR (nobs ax m n) * Rcentral o ax m n ldx X 2 k.
Proof. unfold Rcentral. pose proof nobs_R. field. lra. Qed.
Lemma central2_nonneg X k : 0 <= Rcentral o ax m n ldx X 2 k.
Proof. unfold Rcentral. apply Rmult_le_pos; [apply square_sum_nonneg|]. apply Rlt_le, Rinv_0_lt_compat, nobs_R. Qed.

Lemma skewness_R X k : is_result ax m n k ->
  let '(mu, v, g) := skewness arithR t o ax m n X ldx in
  mu k = Rmean o ax m n ldx X k /\ v k = Rcentral o ax m n ldx X 2 k /\
  (v k = 0 -> g k = 0) /\ (v k <> 0 -> g k = Rcentral o ax m n ldx X 3 k / (v k * R_sqrt.sqrt (v k))).
Proof.
  intros Hk. unfold skewness. pose proof nobs_R as Np.
  rewrite square_sums_R, power_sums_R by (auto; lia). rewrite divisor_nobs, !mean_R by auto.
  change (Z.to_nat 3) with 3%nat.
  rewrite central2. set (c2 := Rcentral o ax m n ldx X 2 k). set (N := IZR (nobs ax m n)) in *.
  assert (P2 : 0 <= c2) by apply central2_nonneg.
  assert (V : N * c2 / N = c2) by (field; lra).
  cbn [div arithR of_Z mul sqrt pow NnModel.sqrt NnModel.pow]. fold N.
  split; [reflexivity|]. split; [exact V|]. rewrite V. split; intros E.
  - rewrite E, Rmult_0_r. destruct (is0_R_dec 0) as [(-> & _)|(_ & C)]; [reflexivity|lra].
  - assert (0 < c2) by lra. assert (0 < N * c2) by (apply Rmult_lt_0_compat; auto).
    destruct (is0_R_dec (N * c2)) as [(_ & C)|(-> & _)]; [lra|].
    unfold one_and_half. cbn [div arithR of_Z]. rewrite Rpower_three_halves by auto.
    unfold Rcentral at 1. fold N. set (s3 := sum_of _ _ _ _ _ _ _ _).
    rewrite sqrt_mult by lra.
    assert (0 < R_sqrt.sqrt N) by (apply sqrt_lt_R0; auto). assert (0 < R_sqrt.sqrt c2) by (apply sqrt_lt_R0; auto).
    field. repeat split; lra.
Qed.

Lemma kurtosis_R X k : is_result ax m n k ->
  let '(mu, v, g) := kurtosis arithR t o ax m n X ldx in
  mu k = Rmean o ax m n ldx X k /\ v k = Rcentral o ax m n ldx X 2 k /\
  (v k = 0 -> g k = -3) /\ (v k <> 0 -> g k = Rcentral o ax m n ldx X 4 k / (v k) ^ 2 - 3).
Proof.
  intros Hk. unfold kurtosis. pose proof nobs_R as Np.
  rewrite square_sums_R, power_sums_R by (auto; lia). rewrite divisor_nobs, !mean_R by auto.
  change (Z.to_nat 4) with 4%nat.
  rewrite central2. set (c2 := Rcentral o ax m n ldx X 2 k). set (N := IZR (nobs ax m n)) in *.
  assert (P2 : 0 <= c2) by apply central2_nonneg.
  assert (V : N * c2 / N = c2) by (field; lra).
  cbn [div arithR of_Z mul sub opp]. fold N.
  split; [reflexivity|]. split; [exact V|]. rewrite V. split; intros E.
  - rewrite E, Rmult_0_r. destruct (is0_R_dec 0) as [(-> & _)|(_ & C)]; [reflexivity|lra].
  - assert (0 < c2) by lra. assert (0 < N * c2) by (apply Rmult_lt_0_compat; auto).
    destruct (is0_R_dec (N * c2)) as [(_ & C)|(-> & _)]; [lra|].
    unfold Rcentral at 1. fold N. field. repeat split; lra.
Qed.

(** the other means *)
Lemma harmonic_R X k : is_result ax m n k -> (forall a, behind o ax m n ldx k a -> X a <> 0) ->
  sum_of o ax m n ldx Rinv X k <> 0 ->
  harmonic_mean arithR t o ax m n X ldx k = IZR (nobs ax m n) / sum_of o ax m n ldx Rinv X k.
Proof.
  intros Hk Hx Hs. unfold harmonic_mean. rewrite dsum_R by auto. rewrite divisor_nobs.
  rewrite (slice_ext Rplus 0 _ (fun a => / X a)); auto.
  - fold (sum_of o ax m n ldx Rinv X k).
    destruct (is0_R_dec (sum_of o ax m n ldx Rinv X k)) as [(_ & C)|(-> & _)]; [contradiction|reflexivity].
  - intros a Ha. unfold inverse_term. destruct (is0_R_dec (X a)) as [(_ & C)|(-> & _)]; [elim (Hx a Ha C)|].
    cbn. unfold Rdiv. ring.
Qed.
Lemma tot_ln f p : (forall i, (0 <= i < Z.of_nat p)%Z -> 0 < f i) -> exp (tot (fun i => ln (f i)) p) = total Rmult 1 f p.
Proof.
  induction p as [|p IH]; intros H; cbn [total]; [apply exp_0|].
  rewrite exp_plus, IH, exp_ln; auto; [apply H; lia|intros; apply H; lia].
Qed.
Lemma prod_pos f p : (forall i, (0 <= i < Z.of_nat p)%Z -> 0 < f i) -> 0 < total Rmult 1 f p.
Proof. induction p as [|p IH]; intros H; cbn [total]; [lra|]. apply Rmult_lt_0_compat; [apply IH; intros|]; apply H; lia. Qed.
Lemma exp_tot f p : exp (tot f p) = total Rmult 1 (fun i => exp (f i)) p.
Proof. induction p as [|p IH]; cbn [total]; [apply exp_0|]. rewrite exp_plus, IH. reflexivity. Qed.
Lemma slice_exp f k : exp (slice f k) = slice_total Rmult 1 o ax m n ldx (fun a => exp (f a)) k.
Proof. unfold slice_total. destruct ax; rewrite exp_tot; auto. apply tot_ext. intros. apply exp_tot. Qed.
Lemma exp_pow x p : (exp x) ^ p = exp (INR p * x).
Proof. induction p as [|p IH]; [cbn; rewrite Rmult_0_l, exp_0; reflexivity|]. rewrite S_INR. cbn [Rpow_def.pow]. rewrite IH, <- exp_plus. f_equal. ring. Qed.

Lemma is_positive_R X : is_positive arithR o m n X ldx = true <->
  forall r c, (0 <= r < m)%Z -> (0 <= c < n)%Z -> 0 <= X (entry o ldx r c).
Proof.
  destruct dims as (Hm & Hn & _). unfold is_positive. rewrite forallb_forall. split.
  - intros H r c Hr Hc. destruct o; cbn [entry].
    + specialize (H (Z.to_nat c) ltac:(apply in_seq; lia)). rewrite forallb_forall in H.
      specialize (H (Z.to_nat r) ltac:(apply in_seq; lia)). apply negb_true_iff, Rltb_false in H.
      rewrite !Z2Nat.id in H by lia. replace (c * ldx + r)%Z with (r + ldx * c)%Z by lia. exact H.
    + specialize (H (Z.to_nat r) ltac:(apply in_seq; lia)). rewrite forallb_forall in H.
      specialize (H (Z.to_nat c) ltac:(apply in_seq; lia)). apply negb_true_iff, Rltb_false in H.
      rewrite !Z2Nat.id in H by lia. replace (r * ldx + c)%Z with (c + ldx * r)%Z by lia. exact H.
  - intros H i Hi. apply in_seq in Hi. apply forallb_forall. intros j Hj. apply in_seq in Hj.
    apply negb_true_iff, Rltb_false. cbn [zero of_Z arithR]. destruct o; cbn [entry] in H.
    + replace (Z.of_nat j + ldx * Z.of_nat i)%Z with (Z.of_nat i * ldx + Z.of_nat j)%Z by lia. apply H; lia.
    + replace (Z.of_nat j + ldx * Z.of_nat i)%Z with (Z.of_nat i * ldx + Z.of_nat j)%Z by lia. apply H; lia.
Qed.
Lemma check_ok : check_data o m n ldx = st_success.
Proof.
  destruct dims as (Hm & Hn & Hl). unfold check_data.
  replace (m <? 1)%Z with false by (symmetry; apply Z.ltb_ge; lia). replace (n <? 1)%Z with false by (symmetry; apply Z.ltb_ge; lia).
  cbn [orb]. destruct o; destruct (Z.ltb_spec ldx n); try destruct (Z.ltb_spec ldx m); try lia; reflexivity.
Qed.
Lemma geometric_R X minf k : is_result ax m n k -> (forall r c, (0 <= r < m)%Z -> (0 <= c < n)%Z -> 0 < X (entry o ldx r c)) ->
  fst (geometric_mean arithR exp ln minf t o ax m n X ldx) = st_success /\
  0 < snd (geometric_mean arithR exp ln minf t o ax m n X ldx) k /\
  (snd (geometric_mean arithR exp ln minf t o ax m n X ldx) k) ^ Z.to_nat (nobs ax m n) = product_of o ax m n ldx X k.
Proof.
  intros Hk HX. unfold geometric_mean. rewrite check_ok.
  replace (is_positive arithR o m n X ldx) with true by (symmetry; apply is_positive_R; intros; apply Rlt_le; auto).
  cbn [fst snd]. split; [reflexivity|]. split; [apply exp_pos|].
  rewrite dsum_R by auto. rewrite exp_pow, divisor_nobs. cbn [div arithR of_Z].
  rewrite INR_IZR_INZ, Z2Nat.id by (pose proof nobs_pos; lia).
  replace (IZR (nobs ax m n) * _) with (slice (fun a => log_term arithR ln minf (X a)) k) by (pose proof nobs_R; field; lra).
  rewrite slice_exp. unfold product_of. apply slice_ext; auto. intros a (r & c & Hr & Hc & -> & _).
  specialize (HX r c Hr Hc). unfold log_term. destruct (is0_R_dec (X (entry o ldx r c))) as [(_ & C)|(-> & _)]; [lra|].
  apply exp_ln. exact HX.
Qed.
End Slice.
