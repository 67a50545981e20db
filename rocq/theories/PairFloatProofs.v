From Coq Require Import ZArith List Bool Lia Reals Lra.
From Flocq Require Import Core BinarySingleNaN.
From Verif Require Import Par F64 TreeSearchModel NnModel PairModel PairSpec PairProofs PairMetricProofs.
Import ListNotations.
Local Open Scope R_scope.

Lemma sub_zero_case (x y : f64) : is_finite x = true -> is_finite y = true ->
  (is_nan (f64_sub x y) = false) /\
  (f64_sub y x = Bopp (f64_sub x y) \/ (exists s s', f64_sub x y = B754_zero s /\ f64_sub y x = B754_zero s')).
Proof.
  intros Fx Fy. unfold f64_sub.
  pose proof (Bminus_correct 53 1024 _ _ mode_NE x y Fx Fy) as A. pose proof (Bminus_correct 53 1024 _ _ mode_NE y x Fy Fx) as B.
  replace (B2R y - B2R x) with (- (B2R x - B2R y)) in B by ring. cbn [round_mode] in *. rewrite round_NE_opp, Rabs_Ropp in B.
  destruct (Rlt_bool _ _) in *.
  - destruct A as (A1 & A2 & A3). destruct B as (B1 & B2 & B3).
    split; [destruct (Bminus mode_NE x y); try discriminate; reflexivity|].
    destruct (Req_dec (B2R (Bminus mode_NE x y)) 0) as [Hz|Hz].
    + right. assert (Hz2 : B2R (Bminus mode_NE y x) = 0) by (rewrite B1, <- A1, Hz; ring).
      assert (Hc : forall d : f64, is_finite d = true -> B2R d = 0 -> exists s, d = B754_zero s).
      { intros [s|s| |s m e H] Hf Hr; try discriminate; [eauto|]. exfalso. cbn in Hr. apply eq_0_F2R in Hr. destruct s; discriminate. }
      destruct (Hc _ A2 Hz) as [s Hs]. destruct (Hc _ B2 Hz2) as [s' Hs']. eauto.
    + left. apply B2R_inj.
      * destruct (Bminus mode_NE y x) as [s|s| |s m e H]; try discriminate; [|reflexivity]. exfalso. apply Hz. cbn in B1. rewrite A1. lra.
      * rewrite <- is_finite_Bopp in A2. destruct (Bopp (Bminus mode_NE x y)) as [s|s| |s m e H] eqn:E; try discriminate; [|reflexivity].
        exfalso. apply Hz. rewrite <- (Bopp_involutive 53 1024 (Bminus mode_NE x y)), E. reflexivity.
      * rewrite B1, B2R_Bopp, A1. reflexivity.
  - destruct A as (A1 & A2). destruct B as (B1 & B2).
    split; [destruct (Bminus mode_NE x y) as [s|s| |s m e H]; try reflexivity; unfold binary_overflow in A1; cbn in A1; discriminate|].
    left. apply B2SF_inj. rewrite B1. rewrite B2SF_Bopp || idtac.
    assert (Hs : Bsign y = negb (Bsign x)) by (rewrite A2, negb_involutive; reflexivity).
    destruct (Bminus mode_NE x y) as [s|s| |s m e H]; unfold binary_overflow in *; cbn in *; try discriminate. inversion A1. rewrite Hs. reflexivity.
Qed.

Lemma fma_opp (d g : f64) : Bfma mode_NE (Bopp d) (Bopp d) g = Bfma mode_NE d d g.
Proof.
  destruct d as [s|s| |s m e H]; try reflexivity.
  - destruct s, g; reflexivity.
  - destruct s, g as [sg|sg| |sg mg eg Hg]; reflexivity.
  - destruct s, g as [sg|sg| |sg mg eg Hg]; reflexivity.
Qed.
Lemma fma_zero s s' (g : f64) : Bfma mode_NE (B754_zero s) (B754_zero s) g = Bfma mode_NE (B754_zero s') (B754_zero s') g.
Proof. destruct g as [sg|sg| |sg mg eg Hg], s, s'; reflexivity. Qed.
Lemma abs_opp (d : f64) : f64_abs (Bopp d) = f64_abs d.
Proof. destruct d as [s|s| |s m e H]; reflexivity. Qed.
Section Steps.
Variable pw : f64 -> f64 -> f64.
Notation O := (f64_ops pw).
Lemma square_sym x y : is_finite x = true -> is_finite y = true -> same_step (square_step O) (x, y) (y, x).
Proof.
  intros Fx Fy g. unfold square_step. cbn. destruct (sub_zero_case x y Fx Fy) as [_ [->|[s [s' [-> ->]]]]].
  - symmetry. apply fma_opp.
  - apply fma_zero.
Qed.
Lemma abs_sub_sym x y : is_finite x = true -> is_finite y = true -> f64_abs (f64_sub x y) = f64_abs (f64_sub y x).
Proof.
  intros Fx Fy. destruct (sub_zero_case x y Fx Fy) as [_ [->|[s [s' [-> ->]]]]]; [symmetry; apply abs_opp|reflexivity].
Qed.
Lemma abs_sym x y : is_finite x = true -> is_finite y = true -> same_step (abs_step O) (x, y) (y, x).
Proof. intros Fx Fy g. unfold abs_step. cbn. rewrite abs_sub_sym; auto. Qed.
Lemma pow_sym p x y : is_finite x = true -> is_finite y = true -> same_step (pow_step O p) (x, y) (y, x).
Proof. intros Fx Fy g. unfold pow_step. cbn. rewrite abs_sub_sym; auto. Qed.
Lemma fma_comm (x y g : f64) : Bfma mode_NE x y g = Bfma mode_NE y x g.
Proof.
  destruct x as [sx|sx| |sx mx ex Hx], y as [sy|sy| |sy my ey Hy]; try reflexivity;
    try (destruct sx, sy; reflexivity).
  destruct g as [sg|sg| |sg mg eg Hg]; try reflexivity.
  - unfold Bfma, Bfma_szero, Operations.Fmult. cbn [Bsign]. rewrite xorb_comm, Z.mul_comm, (Z.add_comm ex). reflexivity.
  - unfold Bfma, Bfma_szero, Operations.Fmult. cbn [Bsign]. rewrite xorb_comm, Z.mul_comm, (Z.add_comm ex). reflexivity.
Qed.
Lemma dot_sym x y : same_step (dot_step O) (x, y) (y, x).
Proof. intro g. unfold dot_step. cbn. apply fma_comm. Qed.
Lemma mul_comm (x y : f64) : f64_mul x y = f64_mul y x.
Proof.
  unfold f64_mul. apply B2SF_inj. destruct x as [sx|sx| |sx mx ex Hx], y as [sy|sy| |sy my ey Hy]; try reflexivity;
    try (destruct sx, sy; reflexivity).
  unfold Bmult. rewrite !B2SF_SF2B. rewrite xorb_comm, Pos.mul_comm, Z.add_comm. reflexivity.
Qed.

Lemma nonneg_cases g : nonneg g -> g = B754_infinity false \/ (is_finite g = true /\ Bsign g = false /\ 0 <= B2R g).
Proof.
  intros [N S]. destruct g as [s|s| |s m e H]; cbn in *; subst; try discriminate; [right|left; reflexivity|right].
  - repeat split; auto. cbn. lra.
  - repeat split; auto. apply F2R_ge_0. cbn. lia.
Qed.
Lemma overflow_nonneg (g : f64) : B2SF g = binary_overflow 53 1024 mode_NE false -> nonneg g.
Proof. intro H. destruct g as [s|s| |s m e Hb]; unfold binary_overflow in H; cbn in H; try discriminate. inversion H. split; reflexivity. Qed.
Lemma nonneg_fma d g : is_nan d = false -> nonneg g -> nonneg (Bfma mode_NE d d g).
Proof.
  intros Nd Hg. destruct (nonneg_cases g Hg) as [->|(Fg & Sg & Rg)].
  - destruct d as [s|s| |s m e H]; try discriminate; try (destruct s); split; reflexivity.
  - destruct (is_finite d) eqn:Fd.
    + pose proof (Bfma_correct 53 1024 _ _ mode_NE d d g Fd Fd Fg) as A. cbv zeta in A.
      assert (Hr : 0 <= B2R d * B2R d + B2R g) by nra.
      destruct (Rlt_bool (Rabs _) _).
      * destruct A as (A1 & A2 & A3). split; [destruct (Bfma mode_NE d d g); try discriminate; reflexivity|]. rewrite A3.
        destruct (Rcompare_spec (B2R d * B2R d + B2R g) 0); [lra| |reflexivity].
        unfold Bfma_szero. rewrite xorb_nilpotent, Sg. reflexivity.
      * rewrite Rlt_bool_false in A by lra. apply overflow_nonneg, A.
    + destruct d as [s|s| |s m e H]; try discriminate. destruct g as [sg|sg| |sg mg eg Hg']; try discriminate; destruct s; split; reflexivity.
Qed.
Lemma nonneg_add a b : nonneg a -> nonneg b -> nonneg (f64_add a b).
Proof.
  intros Ha Hb. destruct (nonneg_cases a Ha) as [->|(Fa & Sa & Ra)]; destruct (nonneg_cases b Hb) as [->|(Fb & Sb & Rb)].
  - split; reflexivity.
  - destruct b as [s|s| |s m e H]; try discriminate; split; reflexivity.
  - destruct a as [s|s| |s m e H]; try discriminate; split; reflexivity.
  - unfold f64_add. pose proof (Bplus_correct 53 1024 _ _ mode_NE a b Fa Fb) as A.
    destruct (Rlt_bool (Rabs _) _).
    + destruct A as (A1 & A2 & A3). split; [destruct (Bplus mode_NE a b); try discriminate; reflexivity|]. rewrite A3.
      destruct (Rcompare_spec (B2R a + B2R b) 0); [lra| |reflexivity]. rewrite Sa, Sb. reflexivity.
    + destruct A as (A1 & A2). rewrite Sa in A1. apply overflow_nonneg, A1.
Qed.
Lemma nonneg_abs d : is_nan d = false -> nonneg (f64_abs d).
Proof. destruct d as [s|s| |s m e H]; intro N; try discriminate; split; reflexivity. Qed.
Lemma nonneg_sqrt g : nonneg g -> nonneg (f64_sqrt g).
Proof.
  intro Hg. pose proof (Bsqrt_correct 53 1024 eq_refl eq_refl mode_NE g) as (A & B & C). unfold f64_sqrt.
  destruct Hg as [N S]. destruct g as [s|s| |s m e H]; cbn in N, S; try discriminate; subst s; try (split; reflexivity).
  assert (Hn : is_nan (@Bsqrt 53 1024 eq_refl eq_refl mode_NE (B754_finite false m e H)) = false).
  { destruct (@Bsqrt 53 1024 eq_refl eq_refl mode_NE (B754_finite false m e H)); try discriminate; reflexivity. }
  split; [exact Hn|]. rewrite C by exact Hn. reflexivity.
Qed.
Lemma zero_nonneg : nonneg (f64_of_Z 0).
Proof. split; reflexivity. Qed.
Lemma square_nonneg g x y : is_finite x = true -> is_finite y = true -> nonneg g -> nonneg (square_step O g (x, y)).
Proof. intros Fx Fy Hg. unfold square_step. cbn. apply nonneg_fma; auto. apply (sub_zero_case x y Fx Fy). Qed.
Lemma abs_nonneg g x y : is_finite x = true -> is_finite y = true -> nonneg g -> nonneg (abs_step O g (x, y)).
Proof. intros Fx Fy Hg. unfold abs_step. cbn. apply nonneg_add; auto. apply nonneg_abs. apply (sub_zero_case x y Fx Fy). Qed.
(** a number and itself *)
Lemma sub_self (x : f64) : is_finite x = true -> exists s, f64_sub x x = B754_zero s.
Proof.
  intro Fx. destruct (sub_zero_case x x Fx Fx) as [N [H|[s [s' [H _]]]]]; [|eauto].
  destruct (f64_sub x x) as [s|s| |s m e Hb]; [eauto| |discriminate|]; cbn in H; injection H; destruct s; discriminate.
Qed.
Lemma square_self x : is_finite x = true -> square_step O (f64_of_Z 0) (x, x) = f64_of_Z 0.
Proof. intro Fx. unfold square_step. cbn. destruct (sub_self x Fx) as [s ->]. destruct s; reflexivity. Qed.
Lemma abs_self x : is_finite x = true -> abs_step O (f64_of_Z 0) (x, x) = f64_of_Z 0.
Proof. intro Fx. unfold abs_step. cbn. destruct (sub_self x Fx) as [s ->]. destruct s; reflexivity. Qed.
End Steps.
