(** Rounding errors in class_frequency_approximation do not matter below 2^25 samples. *)
From Coq Require Import ZArith Reals Lia Lra Bool Psatz.
From Flocq Require Import Core BinarySingleNaN Sterbenz.
From Verif Require Import F64 ShuffleModel.
Local Open Scope R_scope.

Lemma bpow_small e : (e <= 0)%Z -> 0 < bpow radix2 e <= 1.
Proof. intros H. split; [apply bpow_gt_0|]. change 1 with (bpow radix2 0). apply bpow_le; auto. Qed.

Lemma big_ok x : Rabs x <= 1267650600228229401496703205376 -> Rabs x <= bpow radix2 1000.
Proof.
  intros H. eapply Rle_trans; [exact H|].
  change 1267650600228229401496703205376 with (bpow radix2 100). apply bpow_le. lia.
Qed.

Lemma frac_format X : 0 <= X -> generic_format radix2 fexp64 X -> X <= 1073741824 ->
  generic_format radix2 fexp64 (X - IZR (Zfloor X)).
Proof.
  intros H0 HX Hb. pose proof (Zfloor_lb X) as L. pose proof (Zfloor_ub X) as U.
  assert (F0 : (0 <= Zfloor X)%Z) by (apply Zfloor_lub; auto).
  destruct (Z.eq_dec (Zfloor X) 0) as [E|E].
  - rewrite E, Rminus_0_r. auto.
  - apply sterbenz; auto with typeclass_instances.
    + apply format_Z. assert (IZR (Zfloor X) <= 1073741824) by lra.
      apply le_IZR in H. lia.
    + assert (1 <= IZR (Zfloor X)) by (apply IZR_le; lia). lra.
Qed.

Lemma expected_value (c m n : Z) :
  (0 <= c <= m)%Z -> (2 <= m <= 2 ^ 25)%Z -> (0 <= n <= m)%Z ->
  exists X, is (expected c m n) X /\ 0 <= X <= 1073741824 /\
    generic_format radix2 fexp64 X /\
    Rabs (X - IZR c * IZR n / IZR m) < / IZR m /\ (c = 0%Z -> X = 0).
Proof.
  intros Hc Hm Hn. change (2 ^ 25)%Z with 33554432%Z in Hm.
  pose proof (f64_of_Z_is c ltac:(lia)) as Ic. pose proof (f64_of_Z_is m ltac:(lia)) as Im.
  pose proof (f64_of_Z_is n ltac:(lia)) as In'.
  assert (M1 : 2 <= IZR m) by (apply IZR_le; lia).
  assert (M2 : IZR m <= 33554432) by (apply IZR_le; lia).
  assert (C1 : 0 <= IZR c <= IZR m) by (split; apply IZR_le; lia).
  assert (N1 : 0 <= IZR n <= IZR m) by (split; apply IZR_le; lia).
  set (y := IZR c / IZR m).
  assert (Iv : 0 < / IZR m) by (apply Rinv_0_lt_compat; lra).
  assert (Iv1 : IZR m * / IZR m = 1) by (apply Rinv_r; lra).
  assert (Y : 0 <= y <= 1).
  { unfold y, Rdiv. split; [apply Rmult_le_pos; lra|]. nra. }
  assert (Ym : y * IZR m = IZR c) by (unfold y; field; lra).
  assert (D : is (f64_div (f64_of_Z c) (f64_of_Z m)) (rnd y)).
  { apply f64_div_is; auto; [lra|]. fold y. apply big_ok. rewrite Rabs_pos_eq; lra. }
  assert (Q : 0 <= rnd y <= 1).
  { apply (rnd_range y 0 1); try lia. lra. }
  set (u := bpow radix2 (-53)) in *.
  assert (Hu : 0 < u <= / 9007199254740992).
  { split; [apply bpow_gt_0|]. unfold u. cbn. lra. }
  assert (Qe : Rabs (rnd y - y) <= u * y).
  { rewrite <- (Rabs_pos_eq y) at 3 by lra. apply rnd_error.
    destruct (Z.eq_dec c 0) as [->|]; [left; unfold y, Rdiv; lra|right].
    rewrite Rabs_pos_eq by lra. apply Rle_trans with (bpow radix2 (-25)).
    - apply bpow_le; lia.
    - assert (1 <= IZR c) by (apply IZR_le; lia). cbn.
      apply Rmult_le_reg_r with (IZR m); [lra|]. rewrite Ym. lra. }
  apply Rabs_le_inv in Qe.
  set (q := rnd y) in *. set (p := q * IZR n).
  assert (P : 0 <= p <= 33554432) by (unfold p; nra).
  assert (MU : is (expected c m n) (rnd p)).
  { unfold expected. apply f64_mul_is; auto. apply big_ok. fold p. rewrite Rabs_pos_eq; lra. }
  assert (R : 0 <= rnd p <= 33554432) by (apply (rnd_range p 0 33554432); try lia; lra).
  assert (Xe : Rabs (rnd p - p) <= u * p).
  { rewrite <- (Rabs_pos_eq p) at 3 by lra. apply rnd_error.
    destruct (Z.eq_dec c 0) as [E|].
    { left. unfold p, q, y. rewrite E. unfold Rdiv. rewrite Rmult_0_l.
      unfold rnd. rewrite round_0 by auto with typeclass_instances. lra. }
    destruct (Z.eq_dec n 0) as [E|]; [left; unfold p; rewrite E; lra|right].
    assert (1 <= IZR c) by (apply IZR_le; lia). assert (1 <= IZR n) by (apply IZR_le; lia).
    assert (/ 33554432 <= y) by nra.
    rewrite Rabs_pos_eq by lra. apply Rle_trans with (bpow radix2 (-26)); [apply bpow_le; lia|].
    cbn. assert (/ 67108864 <= q) by nra. unfold p. nra. }
  apply Rabs_le_inv in Xe.
  exists (rnd p). split; [exact MU|]. split; [lra|].
  split; [unfold rnd; apply generic_format_round; auto with typeclass_instances|]. split.
  - replace (IZR c * IZR n / IZR m) with (y * IZR n) by (unfold y; field; lra).
    assert (Hp : Rabs (p - y * IZR n) <= u * (y * IZR n)).
    { unfold p. apply Rabs_le. nra. }
    apply Rabs_le_inv in Hp.
    assert (Hx : 0 <= y * IZR n <= 33554432) by nra.
    set (x := y * IZR n) in *.
    assert (Hl : Rabs (rnd p - x) <= / 67108864).
    { apply Rabs_le. assert (u * p <= u * 33554432) by nra. assert (u * x <= u * 33554432) by nra.
      lra. }
    eapply Rle_lt_trans; [exact Hl|]. apply Rmult_lt_reg_l with (IZR m); [lra|].
    rewrite Iv1. lra.
  - intros ->. unfold p, q, y, Rdiv. rewrite Rmult_0_l. unfold rnd.
    rewrite (round_0 radix2 fexp64 ZnearestE) , Rmult_0_l. apply round_0.
    all: auto with typeclass_instances.
Qed.

(** The floored frequency and the remainder of one class. *)
Definition freq_contract (c m n F : Z) (v : R) : Prop :=
  (0 <= F)%Z /\ 0 <= v /\ (F * m <= c * n <= (F + 1) * m)%Z /\
  (v = 0 -> (F * m = c * n)%Z) /\
  (((F + 1) * m = c * n)%Z -> v > / 2) /\ ((F * m = c * n)%Z -> v < / 2) /\
  (c = 0%Z -> v = 0).

Lemma floored_remainder (c m n : Z) :
  (0 <= c <= m)%Z -> (2 <= m <= 2 ^ 25)%Z -> (0 <= n <= m)%Z ->
  exists v, is (remainder c m n) v /\ freq_contract c m n (floored c m n) v.
Proof.
  intros Hc Hm Hn. destruct (expected_value c m n Hc Hm Hn) as (X & IX & BX & GX & EX & ZX).
  assert (EF : floored c m n = Zfloor X).
  { unfold floored. apply f64_trunc_is; auto. lra. }
  pose proof (Zfloor_lb X) as L. pose proof (Zfloor_ub X) as U.
  assert (F0 : (0 <= Zfloor X)%Z) by (apply Zfloor_lub; lra).
  assert (F1 : (Zfloor X <= 1073741824)%Z).
  { apply le_IZR. lra. }
  unfold remainder. rewrite EF.
  set (F := Zfloor X) in *.
  exists (X - IZR F). split.
  - replace (X - IZR F) with (rnd (X - IZR F)).
    + apply f64_sub_is; auto; [apply f64_of_Z_is; lia|]. apply big_ok. rewrite Rabs_pos_eq; lra.
    + unfold rnd. apply round_generic; auto with typeclass_instances.
      apply frac_format; auto; lra.
  - assert (M1 : 2 <= IZR m) by (apply IZR_le; lia).
    assert (Iv : 0 < / IZR m) by (apply Rinv_0_lt_compat; lra).
    assert (Iv1 : IZR m * / IZR m = 1) by (apply Rinv_r; lra).
    assert (Iv2 : / IZR m <= / 2) by (apply Rinv_le_contravar; lra).
    set (x := IZR c * IZR n / IZR m) in *.
    assert (Hx : x * IZR m = IZR (c * n)) by (unfold x; rewrite mult_IZR; field; lra).
    apply Rabs_lt_inv in EX.
    assert (A1 : forall a : Z, IZR a - x < / IZR m -> (a * m <= c * n)%Z).
    { intros a Ha. assert (IZR (a * m) < IZR (c * n + 1)).
      { rewrite plus_IZR, <- Hx, mult_IZR. nra. }
      apply lt_IZR in H. lia. }
    assert (A2 : forall a : Z, x - IZR a < / IZR m -> (c * n <= a * m)%Z).
    { intros a Ha. assert (IZR (c * n) < IZR (a * m + 1)).
      { rewrite plus_IZR, <- Hx, mult_IZR. nra. }
      apply lt_IZR in H. lia. }
    assert (A3 : forall a : Z, (a * m = c * n)%Z -> x = IZR a).
    { intros a Ha. apply (f_equal IZR) in Ha. rewrite mult_IZR in Ha.
      apply Rmult_eq_reg_r with (IZR m); lra. }
    repeat split; auto; try lra.
    + apply A1. lra.
    + apply A2. rewrite plus_IZR. lra.
    + intros Hv. apply Z.le_antisymm; [apply A1; lra|apply A2; lra].
    + intros Hf. apply A3 in Hf. rewrite plus_IZR in Hf. lra.
    + intros Hf. apply A3 in Hf. lra.
    + intros Hz. assert (X = 0) by auto. unfold F. rewrite H. 
      replace (Zfloor 0) with 0%Z; [lra|]. symmetry. apply (Zfloor_IZR 0).
Qed.
