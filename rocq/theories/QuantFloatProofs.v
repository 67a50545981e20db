(** The positions of the order statistics, from fractional indices in double precision. *)
From Coq Require Import ZArith Reals Lia Lra List Bool.
From Flocq Require Import Core IEEE754.BinarySingleNaN.
From Verif Require Import Base Par F64 SplitModel SplitSpec QuantModel QuantSpec.
Local Open Scope R_scope.

(** ** Rounding to integers *)
Lemma pow2_bpow e : (0 <= e)%Z -> IZR (2 ^ e) = bpow radix2 e.
Proof. apply (IZR_Zpower radix2). Qed.
Lemma ratio_is x r : is x r -> exists a b, ratio x = Some (a, b) /\ (0 < b)%Z /\ r = IZR a / IZR b.
Proof.
  intros (F & E). destruct x as [s|s| |s m e B]; try discriminate; cbn [ratio].
  - exists 0%Z, 1%Z. split; auto. split; [lia|]. rewrite <- E. cbn. lra.
  - cbn [B2R] in E. rewrite <- E. unfold F2R. cbn [Fnum Fexp].
    replace (cond_Zopp s (Z.pos m)) with (if s then Z.neg m else Z.pos m) by (destruct s; auto).
    set (v := if s then Z.neg m else Z.pos m).
    destruct (Z.leb_spec 0 e) as [H|H].
    + exists (v * 2 ^ e)%Z, 1%Z. split; auto. split; [lia|].
      rewrite mult_IZR. rewrite pow2_bpow by auto. field.
    + exists v, (2 ^ (- e))%Z. split; auto. split; [apply Z.pow_pos_nonneg; lia|].
      rewrite pow2_bpow by lia. rewrite bpow_opp.
      pose proof (bpow_gt_0 radix2 e). field. apply Rgt_not_eq. auto.
Qed.
Lemma ffloor_is x r : is x r -> ffloor x = Some (Zfloor r).
Proof.
  intros H. destruct (ratio_is x r H) as (a & b & E & B & ->). unfold ffloor. rewrite E. cbn.
  rewrite Zfloor_div by lia. auto.
Qed.
Lemma fceil_is x r : is x r -> fceil x = Some (Zceil r).
Proof.
  intros H. destruct (ratio_is x r H) as (a & b & E & B & ->). unfold fceil. rewrite E. cbn.
  f_equal. unfold Zceil. f_equal. rewrite <- Zfloor_div by lia. f_equal. rewrite opp_IZR.
  field. apply not_0_IZR. lia.
Qed.
Lemma fnearest_is x r : is x r -> fnearest x = Some (ZnearestE r).
Proof.
  intros H. destruct (ratio_is x r H) as (a & b & E & B & ->). unfold fnearest. rewrite E. cbn [option_map].
  f_equal. assert (B' : 0 < IZR b) by (apply IZR_lt; auto).
  pose proof (Z.div_mod a b ltac:(lia)) as D. pose proof (Z.mod_pos_bound a b B) as M.
  assert (Fl : Zfloor (IZR a / IZR b) = (a / b)%Z) by (apply Zfloor_div; lia).
  unfold Znearest. rewrite Fl.
  assert (Fr : IZR a / IZR b - IZR (a / b) = IZR (a mod b) / IZR b).
  { rewrite D at 1. rewrite plus_IZR, mult_IZR. field. lra. }
  rewrite Fr.
  assert (Ce : (a mod b <> 0)%Z -> Zceil (IZR a / IZR b) = (a / b + 1)%Z).
  { intros N. rewrite Zceil_floor_neq; [rewrite Fl; auto|]. rewrite Fl. intros Q.
    assert (Q0 : IZR (a mod b) / IZR b = 0) by (rewrite <- Fr; lra).
    assert (IZR (a mod b) = 0). { replace (IZR (a mod b)) with (IZR (a mod b) / IZR b * IZR b) by (field; lra). rewrite Q0. lra. }
    apply N. apply eq_IZR. auto. }
  assert (C2 : forall c : R, IZR (a mod b) / IZR b < c <-> IZR (a mod b) < c * IZR b).
  { intros c. split; intros Q.
    - apply Rmult_lt_compat_r with (r := IZR b) in Q; auto. replace (IZR (a mod b) / IZR b * IZR b) with (IZR (a mod b)) in Q by (field; lra). auto.
    - apply Rmult_lt_reg_r with (IZR b); auto. replace (IZR (a mod b) / IZR b * IZR b) with (IZR (a mod b)) by (field; lra). auto. }
  set (q := (a / b)%Z) in *. set (m := (a mod b)%Z) in *.
  destruct (Rcompare_spec (IZR m / IZR b) (/ 2)) as [L|L|L].
  - apply C2 in L. assert (L' : (2 * m < b)%Z) by (apply lt_IZR; rewrite mult_IZR; lra).
    assert (Q : ((2 * a + b) / (2 * b) = q)%Z) by (symmetry; apply Z.div_unique with (2 * m + b)%Z; lia).
    assert (R : ((2 * a + b) mod (2 * b) = 2 * m + b)%Z) by (symmetry; apply Z.mod_unique with q; lia).
    rewrite Q, R. destruct (Z.eqb_spec (2 * m + b) 0); [lia|]. auto.
  - assert (L' : (2 * m = b)%Z).
    { apply eq_IZR. rewrite mult_IZR. replace (IZR m) with (IZR m / IZR b * IZR b) by (field; lra). rewrite L. lra. }
    assert (Q : ((2 * a + b) / (2 * b) = q + 1)%Z) by (symmetry; apply Z.div_unique with 0%Z; lia).
    assert (R : ((2 * a + b) mod (2 * b) = 0)%Z) by (symmetry; apply Z.mod_unique with (q + 1)%Z; lia).
    rewrite Q, R. cbn [Z.eqb andb]. rewrite Ce by lia.
    rewrite Z.add_1_r, Z.odd_succ. destruct (Z.even q); cbn [negb]; lia.
  - assert (L' : (b < 2 * m)%Z).
    { apply lt_IZR. rewrite mult_IZR. replace (IZR m) with (IZR m / IZR b * IZR b) by (field; lra).
      apply Rmult_lt_compat_r with (r := IZR b) in L; auto. lra. }
    assert (Q : ((2 * a + b) / (2 * b) = q + 1)%Z) by (symmetry; apply Z.div_unique with (2 * m - b)%Z; lia).
    assert (R : ((2 * a + b) mod (2 * b) = 2 * m - b)%Z) by (symmetry; apply Z.mod_unique with (q + 1)%Z; lia).
    rewrite Q, R. destruct (Z.eqb_spec (2 * m - b) 0); [lia|]. cbn [andb]. rewrite Ce by lia. auto.
Qed.

(** ** Exact differences *)
Lemma rnd_exact y k : generic_format radix2 fexp64 y -> 0 <= y -> y < bpow radix2 52 ->
  Rabs (y - IZR k / 2) <= y -> rnd (y - IZR k / 2) = y - IZR k / 2.
Proof.
  intros F Y0 Y H. unfold rnd. apply round_generic; auto with typeclass_instances.
  destruct (Req_dec y 0) as [-> |N].
  - replace (0 - IZR k / 2) with 0; [apply generic_format_0|]. rewrite <- Rabs_Ropp in H.
    pose proof (Rabs_pos (- (0 - IZR k / 2))). assert (A : Rabs (- (0 - IZR k / 2)) = 0) by lra.
    apply Rabs_eq_0 in A || (destruct (Req_dec (- (0 - IZR k / 2)) 0) as [Z|Z]; [|apply Rabs_no_R0 in Z; contradiction]). lra.
  - set (e := cexp radix2 fexp64 y).
    assert (He : (e <= -1)%Z).
    { unfold e, cexp, fexp64, SpecFloat.fexp, SpecFloat.emin. assert (mag radix2 y <= 52)%Z.
      { apply mag_le_bpow; auto. rewrite Rabs_pos_eq; auto. }
      lia. }
    assert (Ey : y = F2R (Float radix2 (Ztrunc (scaled_mantissa radix2 fexp64 y)) e)) by exact F.
    set (m := Ztrunc (scaled_mantissa radix2 fexp64 y)) in Ey.
    assert (Ek : IZR k / 2 = F2R (Float radix2 (k * 2 ^ (-1 - e)) e)).
    { unfold F2R. cbn [Fnum Fexp]. rewrite mult_IZR.
      rewrite pow2_bpow by lia. rewrite Rmult_assoc, <- bpow_plus.
      replace (-1 - e + e)%Z with (-1)%Z by lia. cbn. lra. }
    assert (Ed : y - IZR k / 2 = F2R (Float radix2 (m - k * 2 ^ (-1 - e)) e)).
    { rewrite Ek. rewrite Ey at 1. unfold F2R. cbn [Fnum Fexp]. rewrite minus_IZR. ring. }
    rewrite Ed. apply generic_format_F2R. intros Nz. rewrite <- Ed. unfold e, cexp.
    apply (monotone_exp fexp64). apply mag_le_abs.
    + rewrite Ed. intros Z. apply Nz. apply eq_0_F2R in Z. auto.
    + rewrite (Rabs_pos_eq y) by auto. auto.
Qed.

(** ** Bounds of the fractional index *)
Lemma is_format x r : is x r -> generic_format radix2 fexp64 r.
Proof. intros (_ & <-). apply generic_format_B2R. Qed.
Lemma rnd_format x : generic_format radix2 fexp64 x -> rnd x = x.
Proof. intros H. unfold rnd. apply round_generic; auto with typeclass_instances. Qed.
Lemma small_bpow x n : Rabs x <= IZR (2 ^ n) -> (0 <= n <= 1000)%Z -> Rabs x <= bpow radix2 1000.
Proof.
  intros H N. eapply Rle_trans; [exact H|]. rewrite pow2_bpow by lia. apply bpow_le. lia.
Qed.
Lemma half_is : is f64_half (/ 2).
Proof.
  split; [reflexivity|]. replace (/ 2) with (IZR 1 / IZR 2) by lra.
  unfold f64_half. vm_compute B2R. unfold F2R. cbn. lra.
Qed.
Lemma quarter_is : is f64_quarter (/ 4).
Proof.
  split; [reflexivity|]. unfold f64_quarter. vm_compute B2R. unfold F2R. cbn. lra.
Qed.
Lemma three_quarters_is : is (f64_div (f64_of_Z 3) (f64_of_Z 4)) (3 / 4).
Proof. split; [reflexivity|]. vm_compute B2R. unfold F2R. cbn. lra. Qed.
Lemma three_eighths_is : is f64_three_eighths (3 / 8).
Proof.
  split; [reflexivity|]. unfold f64_three_eighths. vm_compute B2R. unfold F2R. cbn. lra.
Qed.
Lemma third_is : is f64_third (rnd (/ 3)) /\ / 4 <= rnd (/ 3) <= / 2.
Proof.
  split.
  - replace (/ 3) with (1 / 3) by lra.
    apply (f64_div_is _ _ 1 3); [apply (f64_of_Z_is 1); lia|apply (f64_of_Z_is 3); lia|lra|].
    apply small_bpow with 0%Z; [|lia]. cbn. rewrite Rabs_pos_eq; lra.
  - split.
    + rewrite <- (rnd_format (/ 4)); [apply rnd_mono; lra|apply (is_format _ _ quarter_is)].
    + rewrite <- (rnd_format (/ 2)); [apply rnd_mono; lra|apply (is_format _ _ half_is)].
Qed.

(** The products and sums in use stay within integer bounds. *)
Lemma mul_range x y a b lo hi : is x a -> is y b -> (-1 <= lo <= hi)%Z -> (hi <= 2 ^ 52)%Z ->
  IZR lo <= a * b <= IZR hi -> is (f64_mul x y) (rnd (a * b)) /\ IZR lo <= rnd (a * b) <= IZR hi.
Proof.
  intros Hx Hy L H B. split.
  - apply f64_mul_is; auto. apply small_bpow with 52%Z; [|lia]. apply Rabs_le.
    assert (IZR hi <= IZR (2 ^ 52)) by (apply IZR_le; auto). assert (-1 <= IZR lo) by (apply IZR_le; lia).
    assert (IZR (2 ^ 52) > 1) by (apply IZR_lt; reflexivity). lra.
  - apply rnd_range; auto; lia.
Qed.

Lemma half_format : generic_format radix2 fexp64 (/ 2).
Proof. apply (is_format _ _ half_is). Qed.

Definition h_low (t : quantile_type) : R := match t with Q3 => - / 2 | Q2 | Q5 => / 2 | _ => 0 end.
Lemma quantile_h_is t len q r : t <> QOther -> (1 <= len <= 2 ^ 50)%Z -> is q r -> 0 <= r <= 1 ->
  exists y, quantile_h t len q = Some y /\ is y (rounded_index t len r) /\ h_low t <= rounded_index t len r <= IZR (len + 1).
Proof.
  intros T L Q R.
  assert (LR : 1 <= IZR len <= IZR (2 ^ 50)) by (split; apply IZR_le; lia).
  assert (P50 : IZR (2 ^ 50) + 10 <= IZR (2 ^ 52)) by (rewrite <- plus_IZR; apply IZR_le; lia).
  assert (ZL : forall k, (Z.abs k <= 2 ^ 52)%Z -> is (f64_of_Z k) (IZR k)) by (intros; apply f64_of_Z_is; lia).
  assert (Big : forall z, -1 <= z <= IZR (2 ^ 50) + 10 -> Rabs z <= bpow radix2 1000).
  { intros z Hz. apply small_bpow with 52%Z; [|lia]. apply Rabs_le. lra. }
  assert (Pr : forall k, (0 <= k <= 2 ^ 50 + 2)%Z ->
    is (f64_mul (f64_of_Z k) q) (rnd (IZR k * r)) /\ 0 <= rnd (IZR k * r) <= IZR k).
  { intros k Hk. apply (mul_range (f64_of_Z k) q (IZR k) r 0 k); auto; try lia.
    - apply ZL. lia.
    - assert (0 <= IZR k) by (apply IZR_le; lia). split; [apply Rmult_le_pos; lra|].
      rewrite <- (Rmult_1_r (IZR k)) at 2. apply Rmult_le_compat_l; lra. }
  assert (Bd : forall lo hi z, (lo <= hi)%Z -> (-2 <= lo)%Z -> (hi <= 2 ^ 52)%Z -> IZR lo <= z <= IZR hi ->
     IZR lo <= rnd z <= IZR hi) by (intros; apply rnd_range; lia || auto).
  rewrite plus_IZR.
  destruct t; try congruence; cbn [quantile_h h_low rounded_index].
  - destruct (Pr len) as (Hp & Bp); [lia|]. eexists. split; [reflexivity|]. split; [exact Hp|lra].
  - destruct (Pr len) as (Hp & Bp); [lia|]. eexists. split; [reflexivity|]. split.
    + apply f64_add_is; [exact Hp|exact half_is|]. apply Big. lra.
    + split; [apply Rle_trans with (rnd (/ 2)); [rewrite rnd_format; [lra|apply half_format]|apply rnd_mono; lra]|].
      rewrite <- plus_IZR. apply (Bd 0%Z); try lia. rewrite plus_IZR. lra.
  - destruct (Pr len) as (Hp & Bp); [lia|]. eexists. split; [reflexivity|]. split.
    + apply f64_sub_is; [exact Hp|exact half_is|]. apply Big. lra.
    + split.
      * replace (- / 2) with (rnd (- / 2)); [apply rnd_mono; lra|].
        apply rnd_format. apply generic_format_opp, half_format.
      * rewrite <- plus_IZR. apply (Bd (-1)%Z); try lia. rewrite plus_IZR. lra.
  - destruct (Pr len) as (Hp & Bp); [lia|]. eexists. split; [reflexivity|]. split; [exact Hp|lra].
  - destruct (Pr len) as (Hp & Bp); [lia|]. eexists. split; [reflexivity|]. split.
    + apply f64_add_is; [exact Hp|exact half_is|]. apply Big. lra.
    + split; [apply Rle_trans with (rnd (/ 2)); [rewrite rnd_format; [lra|apply half_format]|apply rnd_mono; lra]|].
      rewrite <- plus_IZR. apply (Bd 0%Z); try lia. rewrite plus_IZR. lra.
  - destruct (Pr (len + 1)%Z) as (Hp & Bp); [lia|]. rewrite plus_IZR in Hp, Bp |- * . eexists. split; [reflexivity|].
    split; [exact Hp|]. lra.
  - destruct (Pr (len - 1)%Z) as (Hp & Bp); [lia|]. rewrite minus_IZR in Hp, Bp |- * . eexists. split; [reflexivity|]. split.
    + apply f64_add_is; [exact Hp|apply (ZL 1%Z); lia|]. apply Big. lra.
    + rewrite <- plus_IZR. apply (Bd 0%Z); try lia. rewrite plus_IZR. lra.
  - destruct third_is as (Hth & Bth). set (th := rnd (/ 3)) in *.
    assert (H1 : is (f64_add (f64_of_Z len) f64_third) (rnd (IZR len + th))).
    { apply f64_add_is; [apply ZL; lia|auto|]. apply Big. lra. }
    assert (B1 : 0 <= rnd (IZR len + th) <= IZR len + / 2).
    { split; [apply (Bd 0%Z (len + 1)%Z); try lia; rewrite plus_IZR; lra|].
      rewrite <- (rnd_format (IZR len + / 2)); [apply rnd_mono; lra|].
      apply generic_format_FLT. apply (FLT_spec radix2 _ 53 _ (Float radix2 (2 * len + 1) (-1))); cbn [Fnum Fexp].
      - unfold F2R. cbn [Fnum Fexp]. rewrite plus_IZR, mult_IZR. cbn. lra.
      - change (Z.pow (radix_val radix2) 53) with (2 ^ 53)%Z. lia.
      - cbn. lia. }
    set (u := rnd (IZR len + th)) in *.
    assert (H2 : is (f64_mul (f64_add (f64_of_Z len) f64_third) q) (rnd (u * r))).
    { apply f64_mul_is; auto. apply Big. split; [apply Rle_trans with 0; [lra|]; apply Rmult_le_pos; lra|].
      assert (u * r <= u * 1) by (apply Rmult_le_compat_l; lra). lra. }
    assert (Fu : generic_format radix2 fexp64 u) by apply (is_format _ _ H1).
    assert (B2 : 0 <= rnd (u * r) <= u).
    { split.
      - apply (Bd 0%Z (len + 1)%Z); try lia. split; [apply Rmult_le_pos; lra|].
        rewrite plus_IZR. assert (u * r <= u * 1) by (apply Rmult_le_compat_l; lra). lra.
      - rewrite <- (rnd_format u) at 2 by auto. apply rnd_mono.
        assert (u * r <= u * 1) by (apply Rmult_le_compat_l; lra). lra. }
    eexists. split; [reflexivity|]. split.
    + apply f64_add_is; [exact H2|exact Hth|]. apply Big. lra.
    + rewrite <- plus_IZR. apply (Bd 0%Z); try lia. rewrite plus_IZR. lra.
  - assert (H1 : is (f64_add (f64_of_Z len) f64_quarter) (rnd (IZR len + / 4))).
    { apply f64_add_is; [apply ZL; lia|exact quarter_is|]. apply Big. lra. }
    assert (B1 : 0 <= rnd (IZR len + / 4) <= IZR len + / 2).
    { split; [apply (Bd 0%Z (len + 1)%Z); try lia; rewrite plus_IZR; lra|].
      rewrite <- (rnd_format (IZR len + / 2)); [apply rnd_mono; lra|].
      apply generic_format_FLT. apply (FLT_spec radix2 _ 53 _ (Float radix2 (2 * len + 1) (-1))); cbn [Fnum Fexp].
      - unfold F2R. cbn [Fnum Fexp]. rewrite plus_IZR, mult_IZR. cbn. lra.
      - change (Z.pow (radix_val radix2) 53) with (2 ^ 53)%Z. lia.
      - cbn. lia. }
    set (u := rnd (IZR len + / 4)) in *.
    assert (H2 : is (f64_mul (f64_add (f64_of_Z len) f64_quarter) q) (rnd (u * r))).
    { apply f64_mul_is; auto. apply Big. split; [apply Rle_trans with 0; [lra|]; apply Rmult_le_pos; lra|].
      assert (u * r <= u * 1) by (apply Rmult_le_compat_l; lra). lra. }
    assert (Fu : generic_format radix2 fexp64 u) by apply (is_format _ _ H1).
    assert (B2 : 0 <= rnd (u * r) <= u).
    { split.
      - apply (Bd 0%Z (len + 1)%Z); try lia. split; [apply Rmult_le_pos; lra|].
        rewrite plus_IZR. assert (u * r <= u * 1) by (apply Rmult_le_compat_l; lra). lra.
      - rewrite <- (rnd_format u) at 2 by auto. apply rnd_mono.
        assert (u * r <= u * 1) by (apply Rmult_le_compat_l; lra). lra. }
    eexists. split; [reflexivity|]. split.
    + apply f64_add_is; [exact H2|exact three_eighths_is|]. apply Big. lra.
    + rewrite <- plus_IZR. apply (Bd 0%Z); try lia. rewrite plus_IZR. lra.
Qed.

(** ** The positions *)
Lemma clamp_within len k : (1 <= len)%Z -> clamp (k - 1) 0 (len - 1) = (within len k - 1)%Z.
Proof.
  intros H. unfold clamp, within. destruct (Z.ltb_spec (k - 1) 0); [lia|].
  destruct (Z.ltb_spec (len - 1) (k - 1)); lia.
Qed.
Lemma Zfloor_minus1 x : Zfloor (x - 1) = (Zfloor x - 1)%Z.
Proof.
  apply Zfloor_imp. rewrite plus_IZR, minus_IZR. pose proof (Zfloor_lb x). pose proof (Zfloor_ub x). lra.
Qed.
Lemma Zceil_minus1 x : Zceil (x - 1) = (Zceil x - 1)%Z.
Proof.
  apply Zceil_imp. rewrite !minus_IZR. pose proof (Zceil_ub x). pose proof (Zceil_lb x). lra.
Qed.
Lemma ZnearestE_le x y : x <= y -> (ZnearestE x <= ZnearestE y)%Z.
Proof. intros H. apply Zrnd_le; auto with typeclass_instances. Qed.
Lemma ZnearestE_IZR n : ZnearestE (IZR n) = n.
Proof. apply Zrnd_IZR. auto with typeclass_instances. Qed.

(** The positions counted from 0, for the exact index [x = y - 1]. *)
Definition lower_at (t : quantile_type) (x : R) : Z :=
  match t with Q1 => Zceil x | Q2 => Zceil (x - / 2) | Q3 => ZnearestE x | _ => Zfloor x end.
Definition upper_at (t : quantile_type) (x : R) : Z :=
  match t with Q1 => Zceil x | Q2 => Zfloor (x + / 2) | Q3 => ZnearestE x | _ => Zceil x end.

Lemma at_documented t x : t <> QOther -> documented t (x + 1) (lower_at t x + 1) (upper_at t x + 1).
Proof.
  intros T.
  assert (F : forall z, Zfloor (z + 1) = (Zfloor z + 1)%Z).
  { intros z. pose proof (Zfloor_minus1 (z + 1)). replace (z + 1 - 1) with z in H by lra. lia. }
  assert (C : forall z, Zceil (z + 1) = (Zceil z + 1)%Z).
  { intros z. pose proof (Zceil_minus1 (z + 1)). replace (z + 1 - 1) with z in H by lra. lia. }
  destruct t; try congruence; cbn [documented lower_at upper_at]; rewrite ?F, ?C; auto.
  - replace (x + 1 - / 2) with (x - / 2 + 1) by lra. replace (x + 1 + / 2) with (x + / 2 + 1) by lra.
    rewrite F, C. auto.
  - split; auto. rewrite plus_IZR. pose proof (Znearest_half (fun z => negb (Z.even z)) x) as H.
    replace (IZR (ZnearestE x) + 1 - (x + 1)) with (- (x - IZR (ZnearestE x))) by ring.
    rewrite Rabs_Ropp. lra.
Qed.
Lemma at_next t x x' : x <= x' ->
  (lower_at t x' = lower_at t x /\ upper_at t x' = upper_at t x) \/ (upper_at t x <= lower_at t x')%Z.
Proof.
  intros H.
  assert (Fl : (Zfloor x <= Zfloor x')%Z) by (apply Zfloor_le; auto).
  assert (Ce : (Zceil x <= Zceil x')%Z) by (apply Zceil_le; auto).
  assert (D : (Zfloor x' = Zfloor x /\ Zceil x' = Zceil x) \/ (Zceil x <= Zfloor x')%Z).
  { destruct (Z_lt_le_dec (Zfloor x) (Zfloor x')) as [L|L].
    - right. apply Zceil_glb. pose proof (Zfloor_ub x). assert (IZR (Zfloor x) + 1 <= IZR (Zfloor x')).
      { rewrite <- plus_IZR. apply IZR_le. lia. } lra.
    - assert (E : Zfloor x' = Zfloor x) by lia.
      destruct (Req_dec (IZR (Zfloor x)) x) as [I|I].
      + right. rewrite E. apply Zceil_glb. lra.
      + left. split; auto. rewrite (Zceil_floor_neq x) by auto. rewrite (Zceil_floor_neq x'); [lia|].
        rewrite E. pose proof (Zfloor_lb x). lra. }
  destruct t; cbn [lower_at upper_at]; auto.
  - assert (E : forall z, Zfloor (z + / 2) = (Zfloor (z - / 2) + 1)%Z).
    { intros z. replace (z + / 2) with (z - / 2 + 1) by lra.
      pose proof (Zfloor_minus1 (z - / 2 + 1)) as Q. replace (z - / 2 + 1 - 1) with (z - / 2) in Q by lra. lia. }
    rewrite !E. set (u := x - / 2). set (u' := x' - / 2). assert (Hu : u <= u') by (unfold u, u'; lra).
    destruct (Rle_or_lt u' (IZR (Zfloor u))) as [L|L].
    + left. pose proof (Zfloor_lb u). assert (u' = u) by lra. rewrite H1. auto.
    + right. assert (Zfloor u < Zceil u')%Z; [|lia]. apply lt_IZR. pose proof (Zceil_ub u'). lra.
  - right. apply ZnearestE_le. auto.
Qed.
Lemma at_adjacent t x : (lower_at t x <= upper_at t x <= lower_at t x + 1)%Z.
Proof.
  assert (A : forall z, (Zfloor z <= Zceil z <= Zfloor z + 1)%Z).
  { intros z. split.
    - apply le_IZR. pose proof (Zfloor_lb z). pose proof (Zceil_ub z). lra.
    - apply Zceil_glb. rewrite plus_IZR. pose proof (Zfloor_ub z). lra. }
  pose proof (A x). destruct t; cbn [lower_at upper_at]; try lia.
  assert (E : Zfloor (x + / 2) = (Zfloor (x - / 2) + 1)%Z).
  { replace (x + / 2) with (x - / 2 + 1) by lra.
    pose proof (Zfloor_minus1 (x - / 2 + 1)) as Q. replace (x - / 2 + 1 - 1) with (x - / 2) in Q by lra. lia. }
  pose proof (A (x - / 2)). lia.
Qed.

Section Positions.
Variable t : quantile_type.
Variable len : Z.
Hypothesis T : t <> QOther.
Hypothesis L : (1 <= len <= 2 ^ 50)%Z.
Let minus1 (y : f64) := f64_sub y (f64_of_Z 1).

Lemma len_bounds : 1 <= IZR len /\ IZR (len + 1) + 1 < bpow radix2 52 /\
  forall z, -2 <= z <= IZR (len + 1) -> Rabs z <= bpow radix2 1000.
Proof.
  split; [apply IZR_le; lia|].
  assert (H : IZR (len + 1) + 1 < bpow radix2 52).
  { rewrite <- plus_IZR, <- pow2_bpow by lia. apply IZR_lt. lia. }
  split; auto. intros z Hz. apply Rle_trans with (bpow radix2 52); [|apply bpow_le; lia].
  assert (bpow radix2 52 > 4) by (change 4 with (bpow radix2 2); apply bpow_lt; lia).
  apply Rabs_le. lra.
Qed.
Lemma minus1_is y v : is y v -> h_low t <= v <= IZR (len + 1) -> is (minus1 y) (rnd (v - 1)).
Proof.
  intros Y V. destruct len_bounds as (_ & _ & B).
  apply f64_sub_is; [auto|apply (f64_of_Z_is 1); lia|]. apply B.
  assert (- / 2 <= h_low t) by (destruct t; cbn; lra). lra.
Qed.
Lemma minus1_exact y v : is y v -> / 2 <= v <= IZR (len + 1) -> rnd (v - 1) = v - 1.
Proof.
  intros Y V. destruct len_bounds as (_ & B & _). replace (v - 1) with (v - IZR 2 / 2) by lra.
  apply rnd_exact; try lra; [apply (is_format _ _ Y)|]. apply Rabs_le. lra.
Qed.
Lemma ranks_exact y v : is y v -> 3 / 4 <= v <= IZR (len + 1) ->
  ranks t len (minus1 y) = Some (clamp (lower_at t (v - 1)) 0 (len - 1), clamp (upper_at t (v - 1)) 0 (len - 1)).
Proof.
  intros Y V. destruct len_bounds as (_ & B & B2).
  assert (Hl : h_low t <= / 2) by (destruct t; cbn; lra).
  assert (H : is (minus1 y) (v - 1)).
  { rewrite <- (minus1_exact y v Y) by lra. apply minus1_is; auto. lra. }
  unfold ranks. destruct t; cbn [lower_at upper_at];
    rewrite ?(fceil_is _ _ H), ?(ffloor_is _ _ H), ?(fnearest_is _ _ H); auto.
  assert (F : generic_format radix2 fexp64 v) by apply (is_format _ _ Y).
  assert (E1 : is (f64_sub (minus1 y) f64_half) (v - 1 - / 2)).
  { replace (v - 1 - / 2) with (rnd (v - 1 - / 2)).
    - apply f64_sub_is; auto using half_is. apply B2. lra.
    - replace (v - 1 - / 2) with (v - IZR 3 / 2) by lra. apply rnd_exact; auto; try lra. apply Rabs_le. lra. }
  assert (E2 : is (f64_add (minus1 y) f64_half) (v - 1 + / 2)).
  { replace (v - 1 + / 2) with (rnd (v - 1 + / 2)).
    - apply f64_add_is; auto using half_is. apply B2. lra.
    - replace (v - 1 + / 2) with (v - IZR 1 / 2) by lra. apply rnd_exact; auto; try lra. apply Rabs_le. lra. }
  rewrite (fceil_is _ _ E1), (ffloor_is _ _ E2). auto.
Qed.
Lemma clamp_low k : (k <= 0)%Z -> clamp k 0 (len - 1) = 0%Z.
Proof. intros H. unfold clamp. destruct (Z.ltb_spec k 0); auto. destruct (Z.ltb_spec (len - 1) k); lia. Qed.
Lemma within_low k : (k <= 1)%Z -> within len k = 1%Z.
Proof. unfold within. lia. Qed.
(** small indices *)
Lemma ranks_low y v : is y v -> h_low t <= v -> v < 3 / 4 -> ranks t len (minus1 y) = Some (0, 0)%Z.
Proof.
  intros Y V V2. destruct len_bounds as (B1 & B & B2).
  assert (Hl : - / 2 <= h_low t) by (destruct t; cbn; lra).
  assert (V3 : v <= IZR (len + 1)) by (rewrite plus_IZR; lra).
  assert (H : is (minus1 y) (rnd (v - 1))) by (apply minus1_is; auto).
  assert (R : rnd (v - 1) <= 0).
  { rewrite <- (rnd_Z 0) by lia. apply rnd_mono. lra. }
  assert (C : (Zceil (rnd (v - 1)) <= 0)%Z) by (apply Zceil_glb; auto).
  assert (Fl : (Zfloor (rnd (v - 1)) <= 0)%Z).
  { apply le_IZR. pose proof (Zfloor_lb (rnd (v - 1))). lra. }
  assert (N : (ZnearestE (rnd (v - 1)) <= 0)%Z).
  { rewrite <- (ZnearestE_IZR 0). apply ZnearestE_le. auto. }
  unfold ranks. destruct t; rewrite ?(fceil_is _ _ H), ?(ffloor_is _ _ H), ?(fnearest_is _ _ H);
    rewrite ?clamp_low by auto; auto.
  cbn [h_low] in V. rewrite (minus1_exact y v) in H by (auto; lra).
  assert (E1 : is (f64_sub (minus1 y) f64_half) (rnd (v - 1 - / 2))).
  { apply f64_sub_is; auto using half_is. apply B2. lra. }
  assert (E2 : is (f64_add (minus1 y) f64_half) (rnd (v - 1 + / 2))).
  { apply f64_add_is; auto using half_is. apply B2. lra. }
  rewrite (fceil_is _ _ E1), (ffloor_is _ _ E2).
  rewrite !clamp_low; auto.
  - replace (v - 1 + / 2) with (v - IZR 1 / 2) by lra.
    rewrite rnd_exact; try lra; [|apply (is_format _ _ Y)|apply Rabs_le; lra].
    assert (Zfloor (v - 1 / 2) < 1)%Z; [|lia]. apply lt_IZR. pose proof (Zfloor_lb (v - 1 / 2)). lra.
  - apply Zceil_glb. rewrite <- (rnd_Z 0) by lia. apply rnd_mono. lra.
Qed.
Lemma documented_low v i j : documented t v i j -> v <= 1 -> (i <= 1 /\ j <= 1)%Z.
Proof.
  intros D V.
  assert (C : forall z, z <= 1 -> (Zceil z <= 1)%Z) by (intros; apply Zceil_glb; auto).
  assert (Fl : forall z, z < 2 -> (Zfloor z <= 1)%Z).
  { intros z Hz. assert (Zfloor z < 2)%Z; [|lia]. apply lt_IZR. pose proof (Zfloor_lb z). lra. }
  pose proof (C v V). pose proof (Fl v ltac:(lra)).
  destruct t; cbn [documented] in D; try (destruct D as [-> ->]; lia); [| |contradiction].
  - destruct D as [-> ->]. split; [apply C; lra|apply Fl; lra].
  - destruct D as [D ->]. assert (i < 2)%Z; [|lia]. apply lt_IZR.
    assert (IZR i - v <= / 2) by (eapply Rle_trans; [apply Rle_abs|exact D]). lra.
Qed.
Lemma documented_some v : exists i j, documented t v i j.
Proof.
  exists (lower_at t (v - 1) + 1)%Z, (upper_at t (v - 1) + 1)%Z.
  pose proof (at_documented t (v - 1) T) as H. replace (v - 1 + 1) with v in H by lra. auto.
Qed.

(** The positions used are the documented ones. *)
Lemma ranks_documented y v : is y v -> h_low t <= v <= IZR (len + 1) ->
  exists i j, documented t v i j /\ ranks t len (minus1 y) = Some (within len i - 1, within len j - 1)%Z.
Proof.
  intros Y V. destruct (Rlt_or_le v (3 / 4)) as [S|S].
  - destruct (documented_some v) as (i & j & D). exists i, j. split; auto.
    destruct (documented_low v i j D); [lra|]. rewrite (ranks_low y v) by (auto; lra).
    rewrite !within_low by auto. auto.
  - exists (lower_at t (v - 1) + 1)%Z, (upper_at t (v - 1) + 1)%Z. split.
    + pose proof (at_documented t (v - 1) T) as H. replace (v - 1 + 1) with v in H by lra. auto.
    + rewrite (ranks_exact y v) by (auto; lra). rewrite <- !clamp_within by lia.
      rewrite !Z.add_simpl_r. auto.
Qed.
Lemma clamp_mono a b : (a <= b)%Z -> (clamp a 0 (len - 1) <= clamp b 0 (len - 1))%Z.
Proof.
  intros H. unfold clamp. destruct (Z.ltb_spec a 0), (Z.ltb_spec b 0); try lia;
    destruct (Z.ltb_spec (len - 1) a), (Z.ltb_spec (len - 1) b); lia.
Qed.
Lemma clamp_range a : (0 <= clamp a 0 (len - 1) <= len - 1)%Z.
Proof.
  unfold clamp. destruct (Z.ltb_spec a 0); [lia|]. destruct (Z.ltb_spec (len - 1) a); lia.
Qed.
(** They are in range and adjacent. *)
Lemma ranks_range y v a b : is y v -> h_low t <= v <= IZR (len + 1) ->
  ranks t len (minus1 y) = Some (a, b) -> (0 <= a <= b /\ b <= a + 1 /\ b < len)%Z.
Proof.
  intros Y V E. destruct (Rlt_or_le v (3 / 4)) as [S|S].
  - rewrite (ranks_low y v) in E by (auto; lra). injection E as <- <-. lia.
  - rewrite (ranks_exact y v) in E by (auto; lra). injection E as <- <-.
    destruct (at_adjacent t (v - 1)) as [A1 A2].
    pose proof (clamp_mono _ _ A1). pose proof (clamp_mono _ _ A2).
    pose proof (clamp_range (lower_at t (v - 1))). pose proof (clamp_range (upper_at t (v - 1))).
    assert (clamp (lower_at t (v - 1) + 1) 0 (len - 1) <= clamp (lower_at t (v - 1)) 0 (len - 1) + 1)%Z; [|lia].
    unfold clamp. destruct (Z.ltb_spec (lower_at t (v - 1) + 1) 0), (Z.ltb_spec (lower_at t (v - 1)) 0); try lia;
    destruct (Z.ltb_spec (len - 1) (lower_at t (v - 1) + 1)), (Z.ltb_spec (len - 1) (lower_at t (v - 1))); lia.
Qed.
(** A later index has the same positions, or starts where the previous one ended. *)
Lemma ranks_next y v y' v' a b a' b' : is y v -> is y' v' ->
  h_low t <= v <= IZR (len + 1) -> h_low t <= v' <= IZR (len + 1) ->
  f64_lt (minus1 y') (minus1 y) = false ->
  ranks t len (minus1 y) = Some (a, b) -> ranks t len (minus1 y') = Some (a', b') ->
  (a' = a /\ b' = b) \/ (b <= a')%Z.
Proof.
  intros Y Y' V V' Lt E E'.
  assert (Le : rnd (v - 1) <= rnd (v' - 1)).
  { apply Rnot_lt_le. intros C.
    apply (f64_lt_is _ _ _ _ (minus1_is y' v' Y' V') (minus1_is y v Y V)) in C. congruence. }
  pose proof (ranks_range y' v' a' b' Y' V' E') as R'.
  destruct (Rle_or_lt v 1) as [S|S].
  - right. destruct (ranks_documented y v Y V) as (i & j & D & E2). rewrite E in E2. injection E2 as -> ->.
    destruct (documented_low v i j D S). rewrite (within_low j) by auto. lia.
  - assert (S' : v <= v').
    { rewrite (minus1_exact y v) in Le by (auto; lra).
      assert (/ 2 <= v').
      { apply Rnot_lt_le. intros C. assert (rnd (v' - 1) <= 0); [|lra].
        rewrite <- (rnd_Z 0) by lia. apply rnd_mono. lra. }
      rewrite (minus1_exact y' v') in Le by (auto; lra). lra. }
    rewrite (ranks_exact y v) in E by (auto; lra). rewrite (ranks_exact y' v') in E' by (auto; lra).
    injection E as <- <-. injection E' as <- <-.
    destruct (at_next t (v - 1) (v' - 1)) as [[-> ->]|N]; [lra|auto|]. right. apply clamp_mono. auto.
Qed.
End Positions.
