(** The rounding errors of compute_thresholds. *)
From Coq Require Import ZArith List Bool Lia Reals Lra.
From Flocq Require Import Core BinarySingleNaN.
From Verif Require Import Base Par F64 FloatMid FloatOrder UtilModel SortModel TreeSearchModel ForestModel HistModel.
Local Open Scope R_scope.

Lemma f64_le_is x y a b : is x a -> is y b -> f64_le x y = true <-> a <= b.
Proof.
  intros [Fx <-] [Fy <-]. unfold f64_le. rewrite Bleb_correct by auto.
  case Rle_bool_spec; intros; split; intros; auto; try discriminate; lra.
Qed.
Lemma f64_le_is_false x y a b : is x a -> is y b -> f64_le x y = false <-> b < a.
Proof.
  intros [Fx <-] [Fy <-]. unfold f64_le. rewrite Bleb_correct by auto.
  case Rle_bool_spec; intros; split; intros; auto; try discriminate; lra.
Qed.

Lemma f64_round_is x a : is x a -> 0 <= a <= IZR (2 ^ 52) -> f64_round x = Zfloor (a + / 2).
Proof.
  intros I A. unfold f64_round. rewrite (f64_trunc_is x a) by (auto; apply A). set (t := Zfloor a).
  pose proof (Zfloor_lb a) as L. pose proof (Zfloor_ub a) as U. fold t in L, U.
  assert (T : (0 <= t <= 2 ^ 52)%Z).
  { split; [|apply le_IZR; lra]. apply Zfloor_lub. apply A. }
  assert (G : generic_format radix2 fexp64 (a - IZR t)).
  { destruct I as [_ <-]. destruct (format_FLT (B2R x) (f64_format x)) as (m & e & E & M & Le).
    destruct (Z_lt_le_dec e 0) as [N|N].
    - replace (B2R x - IZR t) with (IZR (m - t * 2 ^ (- e)) * bpow radix2 e).
      + apply FLT_form; auto.
        assert (P : bpow radix2 e * IZR (2 ^ (- e)) = 1).
        { change (2 ^ (- e))%Z with (radix2 ^ (- e))%Z. rewrite IZR_Zpower by lia. rewrite <- bpow_plus.
          replace (e + - e)%Z with 0%Z by lia. reflexivity. }
        assert (B : 0 < bpow radix2 e) by apply bpow_gt_0.
        assert (Q : 0 <= IZR (m - t * 2 ^ (- e)) * bpow radix2 e).
        { rewrite minus_IZR, mult_IZR. replace ((IZR m - IZR t * IZR (2 ^ (- e))) * bpow radix2 e) with (IZR m * bpow radix2 e - IZR t * (bpow radix2 e * IZR (2 ^ (- e)))) by ring.
          rewrite P, <- E. lra. }
        assert (0 <= m - t * 2 ^ (- e))%Z.
        { apply le_IZR. apply Rmult_le_reg_r with (bpow radix2 e); auto. lra. }
        assert (0 <= t * 2 ^ (- e))%Z by (apply Z.mul_nonneg_nonneg; [lia|apply Z.pow_nonneg; lia]). lia.
      + rewrite E, minus_IZR, mult_IZR. rewrite Rmult_minus_distr_r.
        change (2 ^ (- e))%Z with (radix2 ^ (- e))%Z. rewrite IZR_Zpower by lia.
        rewrite Rmult_assoc, <- bpow_plus. replace (- e + e)%Z with 0%Z by lia. change (bpow radix2 0) with 1. lra.
    - assert (Ez : B2R x = IZR (m * 2 ^ e)).
      { rewrite mult_IZR. change (2 ^ e)%Z with (radix2 ^ e)%Z. rewrite IZR_Zpower by lia. auto. }
      assert (Et : t = (m * 2 ^ e)%Z) by (unfold t; rewrite Ez; apply Zfloor_IZR).
      rewrite Ez, Et. replace (IZR (m * 2 ^ e) - IZR (m * 2 ^ e)) with 0 by lra. apply generic_format_0. }
  assert (D : is (f64_sub x (f64_of_Z t)) (a - IZR t)).
  { replace (a - IZR t) with (rnd (a - IZR t)) by (apply rnd_format; auto). apply f64_sub_is; auto.
    - apply f64_of_Z_is. lia.
    - rewrite Rabs_pos_eq by lra. apply Rle_trans with 1; [lra|]. change 1 with (bpow radix2 0). apply bpow_le. lia. }
  assert (Half : is (f64_div (f64_of_Z 1) (f64_of_Z 2)) (/ 2)).
  { replace (/ 2) with (rnd (1 / 2)).
    - apply f64_div_is; try (apply (f64_of_Z_is _); lia); try lra.
      rewrite Rabs_pos_eq by lra. apply Rle_trans with 1; [lra|]. change 1 with (bpow radix2 0). apply bpow_le. lia.
    - replace (1 / 2) with (/ 2) by lra. apply rnd_format. change (/ 2) with (bpow radix2 (-1)). apply generic_format_bpow. vm_compute. discriminate. }
  symmetry. destruct (f64_le _ _) eqn:F.
  - apply (f64_le_is _ _ _ _ Half D) in F. apply Zfloor_imp. rewrite !plus_IZR. lra.
  - apply (f64_le_is_false _ _ _ _ Half D) in F. apply Zfloor_imp. rewrite plus_IZR. lra.
Qed.

Definition e53 : R := / 9007199254740992.
Lemma e53_eq : bpow radix2 (-53) = e53.
Proof. reflexivity. Qed.
Lemma rnd_near x : / 2 ^ 100 <= x -> x - e53 * x <= rnd x <= x + e53 * x.
Proof.
  intros H. assert (P : 0 < / 2 ^ 100) by (apply Rinv_0_lt_compat; apply pow_lt; lra).
  assert (E : Rabs (rnd x - x) <= bpow radix2 (-53) * Rabs x).
  { apply rnd_error. right. rewrite Rabs_pos_eq by lra. apply Rle_trans with (bpow radix2 (-100)); [apply bpow_le; lia|].
    replace (bpow radix2 (-100)) with (/ 2 ^ 100); [auto|]. change (-100)%Z with (- (100))%Z. rewrite bpow_opp. f_equal. rewrite <- IZR_Zpower by lia.
    change (radix2 ^ 100)%Z with (2 ^ 100)%Z. rewrite (pow_IZR 2 100). reflexivity. }
  rewrite e53_eq, (Rabs_pos_eq x) in E by lra. unfold Rabs in E. destruct (Rcase_abs (rnd x - x)); lra.
Qed.

Lemma tiny x : / 1000000000000000000 <= x -> / 2 ^ 100 <= x.
Proof. intros H. eapply Rle_trans; [|exact H]. apply Rinv_le_contravar; [lra|]. rewrite (pow_IZR 2 100). apply IZR_le. vm_compute. discriminate. Qed.
Lemma small_abs x : 0 <= x <= IZR (2 ^ 60) -> Rabs x <= bpow radix2 1000.
Proof.
  intros [H1 H2]. rewrite Rabs_pos_eq by auto. eapply Rle_trans; [exact H2|]. change (IZR (2 ^ 60)) with (bpow radix2 60). apply bpow_le. lia.
Qed.

Section Quantiles.
Variables n m : Z.
Hypothesis Hm : (2 <= m <= 65535)%Z.
Hypothesis Hn : (2 * m <= n <= 2 ^ 32)%Z.

Let i := / IZR m.
Lemma inv_bounds : / 65535 <= i <= / 2 /\ i * IZR m = 1.
Proof.
  assert (2 <= IZR m <= 65535) by (split; apply IZR_le; lia). unfold i. split; [split; apply Rinv_le_contravar; lra|apply Rinv_l; lra].
Qed.
Lemma n_bounds : 4 <= IZR n <= 4294967296 /\ 2 <= IZR n * i.
Proof.
  destruct inv_bounds as [B E]. assert (2 * IZR m <= IZR n) by (rewrite <- mult_IZR; apply IZR_le; lia).
  assert (IZR n <= 4294967296) by (apply IZR_le; lia). assert (4 <= IZR n) by (apply IZR_le; lia).
  split; [lra|]. apply Rle_trans with (2 * IZR m * i); [lra|]. apply Rmult_le_compat_r; lra.
Qed.

Notation step := (q_step num64 m).
Lemma step_is : exists s, is step s /\ i - e53 * i <= s <= i + e53 * i.
Proof.
  destruct inv_bounds as [B _]. exists (rnd (1 / IZR m)).
  assert (E : 1 / IZR m = i) by (unfold i; lra).
  split.
  - apply f64_div_is.
    + apply (f64_of_Z_is 1). lia.
    + apply f64_of_Z_is. lia.
    + apply not_0_IZR. lia.
    + rewrite E. apply small_abs. lra.
  - rewrite E. apply rnd_near. apply tiny. lra.
Qed.

(** [k] additions *)
Fixpoint qn (k : nat) : f64 := match k with O => step | S k => f64_add (qn k) step end.

Lemma qn_is k : (Z.of_nat k <= m + 1)%Z ->
  exists r, is (qn k) r /\ (INR k + 1) * i - (INR k + 1) * (4 * e53) <= r <= (INR k + 1) * i + (INR k + 1) * (4 * e53).
Proof.
  destruct inv_bounds as [B E]. destruct step_is as (s & Is & Bs). unfold e53 in *.
  induction k as [|k IH]; intros K.
  - exists s. split; auto. cbn [INR]. lra.
  - destruct IH as (r & Ir & Br); [lia|]. rewrite S_INR.
    assert (Kb : 0 <= INR k <= IZR m) by (split; [apply pos_INR|rewrite INR_IZR_INZ; apply IZR_le; lia]).
    assert (M : IZR m <= 65535) by (apply IZR_le; lia).
    assert (P : 0 <= INR k * i <= 1).
    { split; [apply Rmult_le_pos; lra|]. rewrite <- E, (Rmult_comm i). apply Rmult_le_compat_r; lra. }
    exists (rnd (r + s)). split.
    + cbn [qn]. apply f64_add_is; auto. apply small_abs. lra.
    + destruct (rnd_near (r + s)) as [R1 R2]; [apply tiny; unfold e53 in *; lra|]. unfold e53 in *. lra.
Qed.

Notation bound := (sub num64 (of_Z num64 1) (mul num64 (milli num64) step)).
Lemma bound_is : exists b, is bound b /\ 1 - 2 / 1000 * i <= b <= 1 - 8 / 10000 * i.
Proof.
  destruct inv_bounds as [B E]. destruct step_is as (s & Is & Bs).
  assert (Mi : exists c, is (f64_div (f64_of_Z 1) (f64_of_Z 1000)) c /\ 9 / 10000 <= c <= 11 / 10000).
  { exists (rnd (1 / 1000)). split.
    - apply f64_div_is; try (apply f64_of_Z_is; lia); try lra. apply small_abs. lra.
    - destruct (rnd_near (1 / 1000)) as [R1 R2]; [apply tiny; lra|]. unfold e53 in *. lra. }
  destruct Mi as (c & Ic & Bc).
  assert (P : 89 / 100000 * i <= c * s <= 12 / 10000 * i).
  { unfold e53 in *. split.
    - apply Rle_trans with (9 / 10000 * s); [lra|]. apply Rmult_le_compat_r; lra.
    - apply Rle_trans with (11 / 10000 * s); [|lra]. apply Rmult_le_compat_r; lra. }
  destruct (rnd_near (c * s)) as [R1 R2]; [apply tiny; lra|].
  destruct (rnd_near (1 - rnd (c * s))) as [R3 R4]; [apply tiny; unfold e53 in *; lra|].
  exists (rnd (1 - rnd (c * s))). split.
  - cbn [sub mul milli of_Z num64]. apply f64_sub_is.
    + apply (f64_of_Z_is 1). lia.
    + apply f64_mul_is; auto. apply small_abs. lra.
    + apply small_abs. unfold e53 in *. lra.
  - unfold e53 in *. lra.
Qed.

Lemma qn_within k : (Z.of_nat k <= m + 1)%Z -> le num64 (qn k) bound = (Z.of_nat k <? m - 1)%Z.
Proof.
  intros K. destruct inv_bounds as [B E]. destruct bound_is as (b & Ib & Bb). destruct (qn_is k K) as (r & Ir & Br).
  assert (Kb : 0 <= INR k <= 65536) by (split; [apply pos_INR|rewrite INR_IZR_INZ; apply IZR_le; lia]).
  assert (M : 2 <= IZR m <= 65535) by (split; apply IZR_le; lia).
  destruct (Z.ltb_spec (Z.of_nat k) (m - 1)) as [L|L].
  - apply (f64_le_is _ _ _ _ Ir Ib).
    assert (INR k + 1 <= IZR m - 1) by (rewrite INR_IZR_INZ, <- plus_IZR, <- minus_IZR; apply IZR_le; lia).
    assert ((INR k + 1) * i <= 1 - i) by (replace (1 - i) with ((IZR m - 1) * i) by lra; apply Rmult_le_compat_r; lra).
    unfold e53 in *. lra.
  - apply (f64_le_is_false _ _ _ _ Ir Ib).
    assert (IZR m <= INR k + 1) by (rewrite INR_IZR_INZ, <- plus_IZR; apply IZR_le; lia).
    assert (1 <= (INR k + 1) * i) by (rewrite <- E, (Rmult_comm i); apply Rmult_le_compat_r; lra).
    unfold e53 in *. lra.
Qed.

(** line 56 *)
Definition place (k : nat) : Z := round num64 (mul num64 (qn k) (of_Z num64 n)).
Lemma place_near k : (Z.of_nat k <= m + 1)%Z ->
  exists r, is (qn k) r /\ IZR n * r - / 100000 <= IZR (place k) + / 2 /\ IZR (place k) - / 2 <= IZR n * r + / 100000 /\
    IZR n * ((INR k + 1) * i) - / 7 <= IZR n * r <= IZR n * ((INR k + 1) * i) + / 7.
Proof.
  intros K. destruct inv_bounds as [B E]. destruct n_bounds as [Nb Ni]. destruct (qn_is k K) as (r & Ir & Br).
  assert (Kb : 0 <= INR k <= 65536) by (split; [apply pos_INR|rewrite INR_IZR_INZ; apply IZR_le; lia]).
  assert (Ki : 0 <= INR k * i <= 2).
  { split; [apply Rmult_le_pos; lra|]. apply Rle_trans with ((IZR m + 1) * i); [|lra].
    apply Rmult_le_compat_r; [lra|]. rewrite INR_IZR_INZ, <- plus_IZR. apply IZR_le. lia. }
  assert (R : 0 < r <= 3) by (unfold e53 in *; lra).
  assert (Q : IZR n * ((INR k + 1) * i) - / 7 <= IZR n * r <= IZR n * ((INR k + 1) * i) + / 7).
  { assert (D : IZR n * ((INR k + 1) * (4 * e53)) <= / 7).
    { apply Rle_trans with (4294967296 * (65537 * (4 * e53))); [|unfold e53; lra].
      apply Rmult_le_compat; unfold e53 in *; lra. }
    split.
    - apply Rle_trans with (IZR n * ((INR k + 1) * i - (INR k + 1) * (4 * e53))); [lra|]. apply Rmult_le_compat_l; lra.
    - apply Rle_trans with (IZR n * ((INR k + 1) * i + (INR k + 1) * (4 * e53))); [|lra]. apply Rmult_le_compat_l; lra. }
  assert (P : 1 <= IZR n * r <= 12884901888).
  { split.
    - apply Rle_trans with (IZR n * ((INR k + 1) * i) - / 7); [|lra].
      assert (IZR n * i <= IZR n * ((INR k + 1) * i)) by (apply Rmult_le_compat_l; lra). lra.
    - apply Rle_trans with (4294967296 * 3); [|lra]. apply Rmult_le_compat; lra. }
  destruct (rnd_near (IZR n * r)) as [R1 R2]; [apply tiny; lra|].
  assert (I : is (mul num64 (qn k) (of_Z num64 n)) (rnd (IZR n * r))).
  { rewrite Rmult_comm. apply f64_mul_is; auto; [apply f64_of_Z_is; lia|]. apply small_abs. rewrite Rmult_comm. lra. }
  exists r. split; auto.
  assert (F : place k = Zfloor (rnd (IZR n * r) + / 2)).
  { unfold place. apply f64_round_is; auto. unfold e53 in *. lra. }
  rewrite F. set (x := rnd (IZR n * r)) in *. pose proof (Zfloor_lb (x + / 2)) as L. pose proof (Zfloor_ub (x + / 2)) as U.
  split; [|split]; auto; unfold e53 in *; lra.
Qed.

Lemma place_low k : (Z.of_nat k <= m + 1)%Z -> (2 <= place k)%Z.
Proof.
  intros K. destruct inv_bounds as [B E]. destruct n_bounds as [Nb Ni]. destruct (place_near k K) as (r & _ & L & _ & Q & _).
  assert (IZR n * i <= IZR n * ((INR k + 1) * i)).
  { apply Rmult_le_compat_l; [lra|]. pose proof (pos_INR k). assert (0 <= INR k * i) by (apply Rmult_le_pos; lra). lra. }
  assert (1 < IZR (place k)) by lra. apply lt_IZR in H0. lia.
Qed.
Lemma place_high k : (Z.of_nat k < m - 1)%Z -> (place k <= n - 1)%Z.
Proof.
  intros K. destruct inv_bounds as [B E]. destruct n_bounds as [Nb Ni]. destruct (place_near k) as (r & _ & _ & U & _ & Q); [lia|].
  assert (INR k + 1 <= IZR m - 1) by (rewrite INR_IZR_INZ, <- plus_IZR, <- minus_IZR; apply IZR_le; lia).
  assert ((INR k + 1) * i <= 1 - i) by (replace (1 - i) with ((IZR m - 1) * i) by lra; apply Rmult_le_compat_r; lra).
  assert (IZR n * ((INR k + 1) * i) <= IZR n * (1 - i)) by (apply Rmult_le_compat_l; lra).
  assert (IZR (place k) < IZR n) by lra. apply lt_IZR in H2. lia.
Qed.
Lemma place_step k k' : (k < k')%nat -> (Z.of_nat k' <= m + 1)%Z -> (place k < place k')%Z.
Proof.
  intros K K'. destruct inv_bounds as [B E]. destruct n_bounds as [Nb Ni].
  destruct (place_near k) as (r & _ & _ & U & _ & Q); [lia|]. destruct (place_near k') as (r' & _ & L & _ & Q' & _); [lia|].
  assert (INR k + 1 <= INR k') by (rewrite <- S_INR; apply le_INR; lia).
  assert (IZR n * ((INR k + 1) * i) + IZR n * i <= IZR n * ((INR k' + 1) * i)).
  { rewrite <- Rmult_plus_distr_l. apply Rmult_le_compat_l; [lra|]. assert ((INR k + 1) * i <= INR k' * i) by (apply Rmult_le_compat_r; lra). lra. }
  apply lt_IZR. lra.
Qed.
(** places are close to multiples of n / m *)
Lemma place_multiple k : (Z.of_nat k <= m + 1)%Z -> Rabs (IZR (place k) - IZR n * ((INR k + 1) * i)) < 7 / 10.
Proof.
  intros K. destruct (place_near k K) as (r & _ & L & U & Q). unfold Rabs. destruct (Rcase_abs _); lra.
Qed.

(** lines 67-70 *)
Definition limit (r : Z) : f64 := add num64 (div num64 (of_Z num64 r) (of_Z num64 n)) step.
Lemma limit_is r : (0 < r <= n - 2)%Z -> exists l, is (limit r) l /\
  IZR r / IZR n + i - / 1000000000000000 <= l <= IZR r / IZR n + i + / 1000000000000000.
Proof.
  intros R. destruct inv_bounds as [B E]. destruct n_bounds as [Nb Ni]. destruct step_is as (s & Is & Bs).
  assert (Rb : 1 <= IZR r <= IZR n) by (split; apply IZR_le; lia).
  assert (D : / 4294967296 <= IZR r / IZR n <= 1).
  { split.
    - apply Rle_trans with (1 * / IZR n); [|apply Rmult_le_compat_r; [apply Rlt_le, Rinv_0_lt_compat; lra|lra]].
      rewrite Rmult_1_l. apply Rinv_le_contravar; lra.
    - apply Rmult_le_reg_r with (IZR n); [lra|]. unfold Rdiv. rewrite Rmult_assoc, Rinv_l, Rmult_1_r, Rmult_1_l by lra. lra. }
  destruct (rnd_near (IZR r / IZR n)) as [R1 R2]; [apply tiny; lra|].
  destruct (rnd_near (rnd (IZR r / IZR n) + s)) as [R3 R4]; [apply tiny; unfold e53 in *; lra|].
  exists (rnd (rnd (IZR r / IZR n) + s)). split.
  - unfold limit. cbn [add div of_Z num64]. apply f64_add_is; auto.
    + apply f64_div_is; try (apply f64_of_Z_is; lia); [lra|]. apply small_abs. lra.
    + apply small_abs. unfold e53 in *. lra.
  - unfold e53 in *. lra.
Qed.

(** a flat region is passed *)
Lemma limit_passed k r : (Z.of_nat k <= m + 1)%Z -> (0 < r <= n - 2)%Z -> le num64 (qn k) (limit r) = false -> (r + 2 <= place k)%Z.
Proof.
  intros K R F. destruct inv_bounds as [B E]. destruct n_bounds as [Nb Ni]. destruct (limit_is r R) as (l & Il & Bl).
  destruct (place_near k K) as (q & Iq & L & _). apply (f64_le_is_false _ _ _ _ Iq Il) in F.
  assert (IZR n * (IZR r / IZR n + i - / 1000000000000000) <= IZR n * q) by (apply Rmult_le_compat_l; lra).
  assert (IZR n * (IZR r / IZR n) = IZR r) by (field; lra).
  assert (IZR (r + 1) < IZR (place k)) by (rewrite plus_IZR; lra). apply lt_IZR in H1. lia.
Qed.
(** it has moved at least one step *)
Lemma limit_moves k r : (Z.of_nat k <= m + 1)%Z -> (place k <= r <= n - 2)%Z -> le num64 (qn k) (limit r) = true.
Proof.
  intros K R. destruct inv_bounds as [B E]. destruct n_bounds as [Nb Ni]. pose proof (place_low k K).
  destruct (limit_is r) as (l & Il & Bl); [lia|].
  destruct (place_near k K) as (q & Iq & _ & _ & _). destruct (place_near k K) as (q' & Iq' & L & U & _).
  apply (f64_le_is _ _ _ _ Iq' Il).
  assert (IZR (place k) <= IZR r) by (apply IZR_le; lia).
  assert (IZR n * (IZR r / IZR n) = IZR r) by (field; lra).
  apply Rmult_le_reg_l with (IZR n); [lra|].
  apply Rle_trans with (IZR n * (IZR r / IZR n + i - / 1000000000000000)); [lra|]. apply Rmult_le_compat_l; lra.
Qed.
(** and stops *)
Lemma limit_reached k r : (Z.of_nat k = m + 1)%Z -> (0 < r <= n - 2)%Z -> le num64 (qn k) (limit r) = false.
Proof.
  intros K R. destruct inv_bounds as [B E]. destruct n_bounds as [Nb Ni]. destruct (limit_is r R) as (l & Il & Bl).
  destruct (qn_is k) as (q & Iq & Bq); [lia|]. apply (f64_le_is_false _ _ _ _ Iq Il).
  assert (Ek : INR k = IZR m + 1) by (rewrite INR_IZR_INZ, K, plus_IZR; lra). rewrite Ek in Bq.
  assert (IZR r / IZR n <= 1).
  { assert (IZR r <= IZR n) by (apply IZR_le; lia). apply Rmult_le_reg_r with (IZR n); [lra|].
    unfold Rdiv. rewrite Rmult_assoc, Rinv_l, Rmult_1_r, Rmult_1_l by lra. lra. }
  assert (IZR m <= 65535) by (apply IZR_le; lia). unfold e53 in *. lra.
Qed.

Lemma skip_ok r : (0 < r <= n - 2)%Z -> forall fuel k, (Z.of_nat k <= m + 1)%Z -> (m + 1 <= Z.of_nat (fuel + k))%Z ->
  exists k', skip num64 m fuel (div num64 (of_Z num64 r) (of_Z num64 n)) (qn k) = qn k' /\ (k <= k')%nat /\ (Z.of_nat k' <= m + 1)%Z /\
    le num64 (qn k') (limit r) = false.
Proof.
  intros R. induction fuel as [|fuel IH]; intros k K F.
  - exists k. repeat split; auto. apply limit_reached; auto. lia.
  - cbn [skip]. fold (limit r). destruct (le num64 (qn k) (limit r)) eqn:E.
    + assert (Z.of_nat k <> m + 1)%Z by (intros Q; rewrite limit_reached in E by auto; discriminate).
      destruct (IH (S k)) as (k' & Ek & L & B & Q); try lia. exists k'. repeat split; auto; lia.
    + exists k. repeat split; auto.
Qed.
End Quantiles.
