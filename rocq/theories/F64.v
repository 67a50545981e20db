(** IEEE-754 double precision as computed by C++ [double] arithmetic (round to nearest, ties to
    even), taken from Flocq.  NaN payloads are not distinguished.  The second half restates
    Flocq's correctness theorems for finite values. *)
From Coq Require Import ZArith Reals Lia Lra Bool.
From Flocq Require Import Core BinarySingleNaN Relative.
Local Open Scope R_scope.

Definition f64 := binary_float 53 1024.
#[global] Instance prec53 : Prec_gt_0 53 := eq_refl.
#[global] Instance prec53_emax : Prec_lt_emax 53 1024 := eq_refl.

Definition f64_of_Z (z : Z) : f64 := binary_normalize 53 1024 _ _ mode_NE z 0 false.
Definition f64_add (x y : f64) : f64 := Bplus mode_NE x y.
Definition f64_sub (x y : f64) : f64 := Bminus mode_NE x y.
Definition f64_mul (x y : f64) : f64 := Bmult mode_NE x y.
Definition f64_div (x y : f64) : f64 := Bdiv mode_NE x y.
Definition f64_trunc (x : f64) : Z := Btrunc x.
Definition f64_lt (x y : f64) : bool := Bltb x y.
Definition f64_le (x y : f64) : bool := Bleb x y.
Definition f64_eq (x y : f64) : bool := Beqb x y.

(** [rnd]: rounding of a real. *)
Definition fexp64 := SpecFloat.fexp 53 1024.
Definition rnd (x : R) : R := round radix2 fexp64 ZnearestE x.

(** [is x r]: x is finite and denotes r. *)
Definition is (x : f64) (r : R) : Prop := is_finite x = true /\ B2R x = r.

#[global] Instance fexp64_valid : Valid_exp fexp64.
Proof. unfold fexp64. apply (fexp_correct 53 1024 _). Qed.

#[global] Instance fexp64_mono : Monotone_exp fexp64.
Proof. intros a b H. unfold fexp64, SpecFloat.fexp. lia. Qed.

Lemma rnd_mono x y : x <= y -> rnd x <= rnd y.
Proof. unfold rnd. apply round_le; auto with typeclass_instances. Qed.

Lemma format_Z z : (Z.abs z <= 2 ^ 53)%Z -> generic_format radix2 fexp64 (IZR z).
Proof.
  intros H. apply generic_format_FLT.
  destruct (Z.eq_dec (Z.abs z) (2 ^ 53)) as [E|E].
  - assert (z = 2 ^ 53 \/ z = - 2 ^ 53)%Z as [->| ->] by lia.
    + apply (FLT_spec radix2 _ 53 _ (Float radix2 1 53)); cbn; [|lia|cbn; lia].
      unfold F2R; cbn. lra.
    + apply (FLT_spec radix2 _ 53 _ (Float radix2 (-1) 53)); cbn; [|lia|cbn; lia].
      unfold F2R; cbn. lra.
  - apply (FLT_spec radix2 _ 53 _ (Float radix2 z 0)); cbn [Fnum Fexp].
    + unfold F2R; cbn. lra.
    + change (radix2 ^ 53)%Z with (2 ^ 53)%Z. lia.
    + cbn. lia.
Qed.

Lemma rnd_Z z : (Z.abs z <= 2 ^ 53)%Z -> rnd (IZR z) = IZR z.
Proof.
  intros H. unfold rnd. apply round_generic; auto with typeclass_instances.
  apply format_Z; auto.
Qed.

Lemma rnd_range x a b : (Z.abs a <= 2 ^ 53)%Z -> (Z.abs b <= 2 ^ 53)%Z ->
  IZR a <= x <= IZR b -> IZR a <= rnd x <= IZR b.
Proof.
  intros Ha Hb [H1 H2]. rewrite <- (rnd_Z a Ha), <- (rnd_Z b Hb) at 1.
  split; apply rnd_mono; auto.
Qed.

Lemma rnd_error x : x = 0 \/ bpow radix2 (-1000) <= Rabs x ->
  Rabs (rnd x - x) <= bpow radix2 (-53) * Rabs x.
Proof.
  intros [->|H].
  - unfold rnd. rewrite round_0 by auto with typeclass_instances.
    rewrite Rminus_0_r, Rabs_R0. lra.
  - pose proof (relative_error_N_FLT radix2 (3 - 1024 - 53) 53 eq_refl
                  (fun x => negb (Z.even x)) x) as E.
    assert (Hx : bpow radix2 (3 - 1024 - 53 + 53 - 1) <= Rabs x).
    { eapply Rle_trans; [|exact H]. apply bpow_le. lia. }
    specialize (E Hx). replace (bpow radix2 (-53)) with (/ 2 * bpow radix2 (- (53) + 1)).
    + exact E.
    + rewrite bpow_plus. change (bpow radix2 1) with 2. change (- (53))%Z with (-53)%Z. lra.
Qed.

Lemma no_overflow x : Rabs x <= bpow radix2 1000 -> Rlt_bool (Rabs (rnd x)) (bpow radix2 1024) = true.
Proof.
  intros H. apply Rlt_bool_true. apply Rle_lt_trans with (bpow radix2 1000).
  - unfold rnd. apply abs_round_le_generic; auto with typeclass_instances.
    apply generic_format_bpow. cbn. lia.
  - apply bpow_lt. lia.
Qed.

Lemma f64_of_Z_is z : (Z.abs z <= 2 ^ 53)%Z -> is (f64_of_Z z) (IZR z).
Proof.
  intros H. pose proof (binary_normalize_correct 53 1024 _ _ mode_NE z 0 false) as E.
  cbn zeta in E. fold (f64_of_Z z) in E.
  assert (F : F2R (Float radix2 z 0) = IZR z) by (unfold F2R; cbn; lra). rewrite F in E.
  change (round radix2 _ (round_mode mode_NE) (IZR z)) with (rnd (IZR z)) in E.
  rewrite (rnd_Z z H) in E. rewrite Rlt_bool_true in E; [split; apply E|].
  rewrite <- abs_IZR. apply Rle_lt_trans with (IZR (2 ^ 53)); [apply IZR_le; auto|].
  change (IZR (2 ^ 53)) with (bpow radix2 53). apply bpow_lt. lia.
Qed.

Lemma f64_div_is x y a b : is x a -> is y b -> b <> 0 -> Rabs (a / b) <= bpow radix2 1000 ->
  is (f64_div x y) (rnd (a / b)).
Proof.
  intros (Fx & <-) (Fy & <-) Hb H. pose proof (Bdiv_correct 53 1024 _ _ mode_NE x y Hb) as E.
  change (round radix2 _ (round_mode mode_NE) ?r) with (rnd r) in E.
  rewrite (no_overflow _ H) in E. split; [|apply E].
  destruct E as (_ & E & _). unfold f64_div. rewrite E. auto.
Qed.

Lemma f64_mul_is x y a b : is x a -> is y b -> Rabs (a * b) <= bpow radix2 1000 ->
  is (f64_mul x y) (rnd (a * b)).
Proof.
  intros (Fx & <-) (Fy & <-) H. pose proof (Bmult_correct 53 1024 _ _ mode_NE x y) as E.
  change (round radix2 _ (round_mode mode_NE) ?r) with (rnd r) in E.
  rewrite (no_overflow _ H) in E. split; [|apply E].
  destruct E as (_ & E & _). unfold f64_mul. rewrite E, Fx, Fy. auto.
Qed.

Lemma f64_sub_is x y a b : is x a -> is y b -> Rabs (a - b) <= bpow radix2 1000 ->
  is (f64_sub x y) (rnd (a - b)).
Proof.
  intros (Fx & <-) (Fy & <-) H. pose proof (Bminus_correct 53 1024 _ _ mode_NE x y Fx Fy) as E.
  change (round radix2 _ (round_mode mode_NE) ?r) with (rnd r) in E.
  rewrite (no_overflow _ H) in E. split; apply E.
Qed.

Lemma f64_add_is x y a b : is x a -> is y b -> Rabs (a + b) <= bpow radix2 1000 ->
  is (f64_add x y) (rnd (a + b)).
Proof.
  intros (Fx & <-) (Fy & <-) H. pose proof (Bplus_correct 53 1024 _ _ mode_NE x y Fx Fy) as E.
  change (round radix2 _ (round_mode mode_NE) ?r) with (rnd r) in E.
  rewrite (no_overflow _ H) in E. split; apply E.
Qed.

Lemma f64_trunc_is x a : is x a -> 0 <= a -> f64_trunc x = Zfloor a.
Proof.
  intros (Fx & <-) H. apply eq_IZR. unfold f64_trunc. rewrite Btrunc_correct.
  - unfold round, F2R, scaled_mantissa, cexp, FIX_exp. cbn.
    rewrite !Rmult_1_r. f_equal. apply Ztrunc_floor. auto.
  - exact prec53_emax.
Qed.

Lemma f64_lt_is x y a b : is x a -> is y b -> f64_lt x y = true <-> a < b.
Proof.
  intros (Fx & <-) (Fy & <-). unfold f64_lt. rewrite Bltb_correct by auto.
  split; [apply Rlt_bool_true_rev || idtac|intros; apply Rlt_bool_true; auto].
  destruct (Rlt_bool_spec (B2R x) (B2R y)); auto; discriminate.
Qed.

Lemma f64_eq_is x y a b : is x a -> is y b -> f64_eq x y = true <-> a = b.
Proof.
  intros (Fx & <-) (Fy & <-). unfold f64_eq. rewrite Beqb_correct by auto.
  destruct (Req_bool_spec (B2R x) (B2R y)); split; auto; discriminate.
Qed.
