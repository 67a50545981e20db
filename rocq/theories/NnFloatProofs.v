(** The arithmetic of doubles and of integers keeps the order ([monotone]). *)
From Coq Require Import ZArith Reals Lia Lra Bool List.
From Flocq Require Import Core BinarySingleNaN Relative.
From Verif Require Import Base F64 FloatOrder FloatMid TreeSearchModel NnModel NnSpec.
Local Open Scope R_scope.

Notation big := (bpow radix2 1024).
Lemma big_pos : 0 < big.
Proof. apply bpow_gt_0. Qed.
#[local] Opaque bpow.

(** rounding, with overflow to the keys of the infinities *)
Definition cap (r : R) : R := Rmax (- big) (Rmin big (rnd r)).
Lemma cap_mono a b : a <= b -> cap a <= cap b.
Proof. intros H. unfold cap. apply Rle_max_compat_l, Rle_min_compat_l, rnd_mono, H. Qed.
Lemma rnd_opp x : rnd (- x) = - rnd x.
Proof. unfold rnd. apply round_NE_opp. Qed.
Lemma cap_opp r : cap (- r) = - cap r.
Proof.
  unfold cap. rewrite rnd_opp. pose proof big_pos as H. revert H. generalize big (rnd r). intros b v H. unfold Rmin.
  destruct (Rle_dec b (- v)), (Rle_dec b v); unfold Rmax;
    repeat match goal with |- context [Rle_dec ?x ?y] => destruct (Rle_dec x y) end; lra.
Qed.
Lemma cap_0 : cap 0 = 0.
Proof. pose proof (cap_opp 0) as H. rewrite Ropp_0 in H. lra. Qed.
Lemma big_format : generic_format radix2 fexp64 big.
Proof. apply generic_format_bpow. unfold fexp64, SpecFloat.fexp, SpecFloat.emin. lia. Qed.
Lemma cap_high r : big <= r -> cap r = big.
Proof.
  intros H. pose proof big_pos. assert (big <= rnd r) by (rewrite <- (rnd_format big big_format); apply rnd_mono; auto).
  unfold cap. rewrite Rmin_left by auto. apply Rmax_right. lra.
Qed.
Lemma key_range x : - big <= key x <= big.
Proof.
  pose proof big_pos. destruct (is_finite x) eqn:F.
  - rewrite key_finite by auto. pose proof (abs_B2R_lt_emax 53 1024 x) as A. unfold Rabs in A. destruct (Rcase_abs (B2R x)); lra.
  - destruct x as [s|[]| |]; try discriminate F; cbn [key B2R]; lra.
Qed.
Lemma cap_key x : cap (key x) = key x.
Proof.
  pose proof (key_range x). assert (E : rnd (key x) = key x).
  { destruct (is_finite x) eqn:F.
    - rewrite key_finite by auto. apply rnd_format, f64_format.
    - destruct x as [s|[]| |]; try discriminate F; cbn [key B2R]; apply rnd_format.
      + apply generic_format_opp, big_format.
      + apply big_format.
      + apply generic_format_0. }
  unfold cap. rewrite E. rewrite Rmin_right by lra. apply Rmax_right. lra.
Qed.
Lemma cap_inside r : Rabs (rnd r) < big -> cap r = rnd r.
Proof.
  intros H. unfold cap. unfold Rabs in H. destruct (Rcase_abs (rnd r)); rewrite Rmin_right by lra; apply Rmax_right; lra.
Qed.
Lemma rnd_sign r : (0 <= r -> 0 <= rnd r) /\ (r <= 0 -> rnd r <= 0).
Proof. assert (E : rnd 0 = 0) by (apply round_0; apply valid_rnd_N). split; intros H; rewrite <- E; apply rnd_mono, H. Qed.
Lemma cap_over (s : bool) r : big <= Rabs (rnd r) -> (if s then r <= 0 else 0 <= r) -> cap r = if s then - big else big.
Proof.
  intros H Hs. pose proof big_pos. pose proof (rnd_sign r) as [P Q]. unfold cap. unfold Rabs in H. destruct s.
  - specialize (Q Hs). destruct (Rcase_abs (rnd r)); [|lra]. rewrite Rmin_right by lra. apply Rmax_left. lra.
  - specialize (P Hs). destruct (Rcase_abs (rnd r)); [lra|]. rewrite Rmin_left by lra. apply Rmax_right. lra.
Qed.
Lemma sign_value (x : f64) : is_finite x = true -> if Bsign x then B2R x <= 0 else 0 <= B2R x.
Proof.
  intros _. destruct x as [s|s| |s m e H]; cbn [Bsign B2R]; try (destruct s; lra).
  - lra.
  - destruct s; [apply F2R_le_0|apply F2R_ge_0]; cbn; lia.
Qed.

Definition number (x : f64) : Prop := is_nan x = false.
Definition finite (x : f64) : Prop := is_finite x = true.
Lemma finite_number x : finite x -> number x.
Proof. unfold finite, number. destruct x; auto; discriminate. Qed.

Lemma sub_cap x y : finite x -> finite y -> number (f64_sub x y) /\ key (f64_sub x y) = cap (key x - key y).
Proof.
  unfold finite. intros Fx Fy. rewrite (key_finite x), (key_finite y) by auto. pose proof (Bminus_correct 53 1024 eq_refl eq_refl mode_NE x y Fx Fy) as H.
  change (round radix2 (SpecFloat.fexp 53 1024) (round_mode mode_NE) (B2R x - B2R y)) with (rnd (B2R x - B2R y)) in H.
  destruct (Rlt_bool_spec (Rabs (rnd (B2R x - B2R y))) big) as [Hb|Hb].
  - destruct H as (H1 & H2 & _). fold (f64_sub x y) in H1, H2. split; [apply finite_number, H2|].
    rewrite key_finite by exact H2. rewrite cap_inside by auto. exact H1.
  - destruct H as (H & Hs). pose proof (sign_value x Fx) as Sx. pose proof (sign_value y Fy) as Sy.
    unfold f64_sub. rewrite (cap_over (Bsign x)); auto.
    + destruct (Bminus mode_NE x y) as [s|s| |s mm e Hbb] eqn:E; try discriminate H.
      split; [reflexivity|]. cbn in H. injection H as H. subst s. cbn [key]. reflexivity.
    + rewrite Hs in *. destruct (Bsign y); cbn [negb] in *; lra.
Qed.

Lemma add_cap_finite x y : finite x -> finite y -> number (f64_add x y) /\ key (f64_add x y) = cap (key x + key y).
Proof.
  unfold finite. intros Fx Fy. rewrite (key_finite x), (key_finite y) by auto. pose proof (Bplus_correct 53 1024 eq_refl eq_refl mode_NE x y Fx Fy) as H.
  change (round radix2 (SpecFloat.fexp 53 1024) (round_mode mode_NE) (B2R x + B2R y)) with (rnd (B2R x + B2R y)) in H.
  destruct (Rlt_bool_spec (Rabs (rnd (B2R x + B2R y))) big) as [Hb|Hb].
  - destruct H as (H1 & H2 & _). fold (f64_add x y) in H1, H2. split; [apply finite_number, H2|].
    rewrite key_finite by exact H2. rewrite cap_inside by auto. exact H1.
  - destruct H as (H & Hs). pose proof (sign_value x Fx) as Sx. pose proof (sign_value y Fy) as Sy.
    unfold f64_add. rewrite (cap_over (Bsign x)); auto.
    + destruct (Bplus mode_NE x y) as [s|s| |s mm e Hbb] eqn:E; try discriminate H.
      split; [reflexivity|]. cbn in H. injection H as H. subst s. cbn [key]. reflexivity.
    + rewrite Hs in *. destruct (Bsign y); lra.
Qed.
Lemma inf_of x : number x -> is_finite x = false -> 0 <= key x -> x = B754_infinity false.
Proof.
  unfold number. intros Nx F H. pose proof big_pos. destruct x as [|[]| |]; try discriminate; auto. cbn [key] in H. lra.
Qed.
Lemma add_cap x y : number x -> number y -> 0 <= key x -> 0 <= key y ->
  number (f64_add x y) /\ key (f64_add x y) = cap (key x + key y).
Proof.
  unfold number in *. intros Nx Ny Hx Hy. destruct (is_finite x) eqn:Fx; [destruct (is_finite y) eqn:Fy|].
  - now apply add_cap_finite.
  - rewrite (inf_of y) in * by auto. rewrite cap_high by (cbn [key] in *; lra).
    destruct x as [s|s| |s m e H]; try discriminate; split; reflexivity.
  - rewrite (inf_of x) in * by auto. rewrite cap_high by (cbn [key] in *; lra).
    destruct y as [s|[]| |s m e H]; try discriminate; try (split; reflexivity).
    cbn [key] in Hy. pose proof big_pos. lra.
Qed.
Lemma mul_cap_finite x y : finite x -> finite y -> number (f64_mul x y) /\ key (f64_mul x y) = cap (key x * key y).
Proof.
  unfold finite. intros Fx Fy. rewrite (key_finite x), (key_finite y) by auto. pose proof (Bmult_correct 53 1024 eq_refl eq_refl mode_NE x y) as H.
  change (round radix2 (SpecFloat.fexp 53 1024) (round_mode mode_NE) (B2R x * B2R y)) with (rnd (B2R x * B2R y)) in H.
  destruct (Rlt_bool_spec (Rabs (rnd (B2R x * B2R y))) big) as [Hb|Hb].
  - destruct H as (H1 & H2 & _). fold (f64_mul x y) in H1, H2. rewrite Fx, Fy in H2. split; [apply finite_number, H2|].
    rewrite key_finite by exact H2. rewrite cap_inside by auto. exact H1.
  - pose proof (sign_value x Fx) as Sx. pose proof (sign_value y Fy) as Sy.
    unfold f64_mul. rewrite (cap_over (xorb (Bsign x) (Bsign y))); auto.
    + destruct (Bmult mode_NE x y) as [s|s| |s mm e Hbb] eqn:E; try discriminate H.
      split; [reflexivity|]. cbn in H. injection H as H. subst s. cbn [key]. reflexivity.
    + destruct (Bsign x), (Bsign y); cbn [xorb]; nra.
Qed.
Lemma big_big : big <= big * big.
Proof.
  assert (1 <= big) by (change 1 with (bpow radix2 0); apply bpow_le; lia). nra.
Qed.
Lemma square_cap x : number x -> number (f64_mul x x) /\ key (f64_mul x x) = cap (key x * key x).
Proof.
  unfold number in *. intros Nx. destruct (is_finite x) eqn:Fx; [now apply mul_cap_finite|].
  destruct x as [|s| |]; try discriminate. split; [destruct s; reflexivity|].
  destruct s; cbn [key].
  - replace (- big * - big) with (big * big) by ring. rewrite cap_high by apply big_big. reflexivity.
  - rewrite cap_high by apply big_big. reflexivity.
Qed.
Lemma abs_key x : number x -> number (f64_abs x) /\ key (f64_abs x) = Rabs (key x).
Proof.
  unfold number in *. intros Nx. pose proof big_pos. destruct (is_finite x) eqn:F.
  - split; [destruct x; auto; discriminate|]. unfold f64_abs. rewrite key_finite by (now rewrite is_finite_Babs).
    rewrite B2R_Babs, key_finite; auto.
  - destruct x as [|s| |]; try discriminate. split; auto. destruct s; cbn [f64_abs Babs key].
    + rewrite Rabs_Ropp, Rabs_pos_eq; lra.
    + rewrite Rabs_pos_eq; lra.
Qed.
Lemma signed_square_cap x : number x -> number (f64_mul x (f64_abs x)) /\ key (f64_mul x (f64_abs x)) = cap (key x * Rabs (key x)).
Proof.
  intros Nx. destruct (abs_key x Nx) as [Na Ea]. unfold number in *. rewrite <- Ea. destruct (is_finite x) eqn:Fx.
  - apply mul_cap_finite; auto. unfold finite, f64_abs. now rewrite is_finite_Babs.
  - destruct x as [|s| |]; try discriminate. split; [destruct s; reflexivity|].
    destruct s; cbn [f64_abs Babs key].
    + replace (- big * big) with (- (big * big)) by ring. rewrite cap_opp, cap_high by apply big_big. reflexivity.
    + rewrite cap_high by apply big_big. reflexivity.
Qed.

Lemma highest_value : finite f64_highest /\ key f64_highest = big - bpow radix2 971.
Proof.
  assert (E : exists H, f64_highest = B754_finite false (2 ^ 53 - 1) 971 H).
  { assert (B2SF f64_highest = SpecFloat.S754_finite false (2 ^ 53 - 1) 971) as E by (vm_compute; reflexivity).
    destruct f64_highest as [s|s| |s m e H]; try discriminate E. cbn in E. injection E as -> -> ->. eauto. }
  destruct E as [H E]. rewrite E. split; [reflexivity|]. rewrite key_finite by reflexivity. cbn [B2R cond_Zopp].
  unfold F2R. cbn [Fnum Fexp].
  replace big with (bpow radix2 53 * bpow radix2 971) by (rewrite <- bpow_plus; f_equal; lia).
  replace (bpow radix2 53) with (IZR (2 ^ 53)) by (rewrite <- IZR_Zpower by lia; reflexivity).
  replace (IZR (Z.pos (2 ^ 53 - 1))) with (IZR (2 ^ 53) - 1) by (rewrite <- minus_IZR; f_equal). ring.
Qed.
Lemma opp_key x : number x -> number (f64_opp x) /\ key (f64_opp x) = - key x.
Proof.
  unfold number in *. intros Nx. destruct x as [s|s| |s m e H]; try discriminate; (split; [reflexivity|]); cbn [f64_opp Bopp key B2R].
  - lra.
  - destruct s; cbn [negb]; lra.
  - apply (B2R_Bopp 53 1024 (B754_finite s m e H)).
Qed.
Lemma finite_range x : finite x -> Rabs (key x) <= big - bpow radix2 971.
Proof.
  unfold finite. intros F. rewrite key_finite by auto. pose proof (abs_B2R_le_emax_minus_prec 53 1024 eq_refl x) as H. exact H.
Qed.

Lemma doubles_monotone pw : monotone (arith64 pw) number finite key.
Proof.
  destruct highest_value as [HF HV]. pose proof (opp_key f64_highest (finite_number _ HF)) as [ON OV].
  split; cbn [arith64 lt le add sub mul opp abs of_Z highest lowest zero].
  - split; intros; [now apply f64_lt_key|now apply f64_le_key].
  - exact finite_number.
  - split; reflexivity.
  - split; auto. intros a Fa. rewrite HV. pose proof (finite_range a Fa). pose proof (Rle_abs (key a)). lra.
  - split; [vm_compute; reflexivity|]. intros a Fa. rewrite OV, HV. pose proof (finite_range a Fa).
    pose proof (Rle_abs (- key a)) as A. rewrite Rabs_Ropp in A. lra.
  - exact opp_key.
  - exact abs_key.
  - intros a b Fa Fb. destruct (sub_cap a b Fa Fb) as [N1 ->]. destruct (sub_cap b a Fb Fa) as [_ ->]. split; auto.
    rewrite <- cap_opp. f_equal. ring.
  - intros a b c Fa Fb Fc H. destruct (sub_cap a c Fa Fc) as [_ ->]. destruct (sub_cap b c Fb Fc) as [_ ->].
    apply cap_mono. lra.
  - intros a b Na Nb Ha Hb. destruct (add_cap a b Na Nb Ha Hb) as [N1 ->]. split; auto.
    rewrite <- (cap_key a) at 1. rewrite <- (cap_key b) at 2. split; apply cap_mono; lra.
  - intros a b c d Na Nb Nc Nd H1 H2. destruct (add_cap a b) as [_ ->]; auto; try lra.
    destruct (add_cap c d) as [_ ->]; auto; try lra. apply cap_mono. lra.
  - intros a Na. destruct (square_cap a Na) as [N1 ->]. split; auto. rewrite <- cap_0. apply cap_mono. nra.
  - intros a b Na Nb H. destruct (square_cap a Na) as [_ ->]. destruct (square_cap b Nb) as [_ ->]. apply cap_mono.
    apply Rsqr_le_abs_1 in H. exact H.
  - intros a Na. destruct (signed_square_cap a Na) as [N1 ->]. destruct (square_cap a Na) as [_ ->]. split; auto.
    destruct (Rle_dec 0 (key a)) as [H|H].
    + now rewrite Rabs_pos_eq.
    + rewrite Rabs_left by lra. rewrite <- cap_opp. f_equal. ring.
Qed.

(** ** Integers as exact arithmetic *)
Definition any (z : Z) : Prop := True.
Definition moderate (z : Z) : Prop := (Z.abs z <= 2 ^ 62)%Z.
Lemma integers_monotone : monotone arithZ any moderate IZR.
Proof.
  split; unfold any, moderate; cbn [arithZ lt le add sub mul opp abs of_Z highest lowest zero].
  - split; intros a b _ _; [rewrite Z.ltb_lt|rewrite Z.leb_le]; split; intros; auto using IZR_lt, IZR_le, lt_IZR, le_IZR.
  - auto.
  - split; [cbn; lia|reflexivity].
  - split; [cbn; lia|]. intros a H. apply IZR_le. lia.
  - split; [cbn; lia|]. intros a H. apply IZR_le. lia.
  - intros a _. split; auto. apply opp_IZR.
  - intros a _. split; auto. apply abs_IZR.
  - intros a b _ _. split; auto. rewrite !minus_IZR. lra.
  - intros a b c _ _ _ H. rewrite !minus_IZR. lra.
  - intros a b _ _ Ha Hb. split; auto. rewrite plus_IZR. lra.
  - intros a b c d _ _ _ _ H1 H2. rewrite !plus_IZR. lra.
  - intros a _. split; auto. rewrite mult_IZR. nra.
  - intros a b _ _ H. rewrite !mult_IZR. apply Rsqr_le_abs_1 in H. exact H.
  - intros a _. split; auto. rewrite !mult_IZR, abs_IZR. destruct (Rle_dec 0 (IZR a)) as [H|H].
    + now rewrite Rabs_pos_eq.
    + rewrite Rabs_left by lra. ring.
Qed.
Lemma integers_strict a : (0 <= a)%Z -> strict_square arithZ any IZR a.
Proof. intros H b _ Hb. apply IZR_le in H. cbn [arithZ mul]. rewrite !mult_IZR. nra. Qed.

(** ** Squares of different doubles of moderate size are different *)
Notation u53 := (/ 9007199254740992).
Lemma square_rounding x : 0 <= x -> x / (1 + u53) - bpow radix2 (-1074) <= rnd x <= x * (1 + u53 / (1 + u53)) + bpow radix2 (-1074).
Proof.
  intros Hx.
  destruct (relative_error_N_FLT'_ex radix2 (-1074) 53 eq_refl (fun x => negb (Z.even x)) x) as (e & h & He & Hh & _ & E).
  change (round radix2 (FLT_exp (-1074) 53) (Znearest (fun x => negb (Z.even x))) x) with (rnd x) in E.
  assert (U : u_ro radix2 53 = u53).
  { unfold u_ro. change (Z.opp 53 + 1)%Z with (Z.opp 52). rewrite bpow_opp, <- IZR_Zpower by lia. change (radix2 ^ 52)%Z with 4503599627370496%Z. lra. }
  rewrite U in He. rewrite E. pose proof (bpow_gt_0 radix2 (-1074)).
  assert (A : forall v b, Rabs v <= b -> - b <= v <= b) by (intros v b; unfold Rabs; destruct (Rcase_abs v); lra).
  apply A in He. apply A in Hh. 
  assert (Q : / (1 + u53) = 1 - u53 / (1 + u53)) by field. 
  unfold Rdiv at 1. rewrite Q. set (w := u53 / (1 + u53)) in *. clearbody w.
  assert (- (x * w) <= x * e) by (replace (- (x * w)) with (x * - w) by ring; apply Rmult_le_compat_l; lra).
  assert (x * e <= x * w) by (apply Rmult_le_compat_l; lra).
  split; lra.
Qed.

Lemma double_strict_square (e b : f64) : finite e -> number b -> bpow radix2 (-400) <= key e <= bpow radix2 500 -> key e < key b ->
  key (f64_mul e e) < key (f64_mul b b).
Proof.
  intros Fe Nb [He1 He2] Hlt. unfold finite in Fe.
  destruct (square_cap e (finite_number e Fe)) as [_ ->]. destruct (square_cap b Nb) as [_ ->].
  pose proof (bpow_gt_0 radix2 (-400)) as P4. 
  set (s := succ radix2 fexp64 (key e)).
  assert (Fme : generic_format radix2 fexp64 (key e)) by (rewrite key_finite by auto; apply f64_format).
  assert (Hs : s <= key b).
  { apply succ_le_lt; auto with typeclass_instances. rewrite <- (cap_key b). unfold cap.
    pose proof (key_range b). destruct (is_finite b) eqn:Fb.
    - rewrite cap_key || idtac. fold (cap (key b)). rewrite cap_key, key_finite by auto. apply f64_format.
    - fold (cap (key b)). rewrite cap_key. destruct b as [|[]| |]; try discriminate; cbn [key].
      + apply generic_format_opp, big_format. + apply big_format. }
  assert (Es : s = key e + ulp radix2 fexp64 (key e)) by (apply succ_eq_pos; lra).
  assert (Us : key e * u53 <= ulp radix2 fexp64 (key e)).
  { pose proof (ulp_FLT_gt radix2 (-1074) 53 (key e)) as H. rewrite Rabs_pos_eq in H by lra. apply Rlt_le in H.
    replace u53 with (bpow radix2 (-53)); [exact H|]. change (-53)%Z with (Z.opp 53). rewrite bpow_opp, <- IZR_Zpower by lia. reflexivity. }
  assert (S2 : s <= bpow radix2 501).
  { apply succ_le_lt; auto with typeclass_instances.
    - apply generic_format_bpow. unfold fexp64, SpecFloat.fexp, SpecFloat.emin. lia.
    - apply Rle_lt_trans with (1 := He2). apply bpow_lt. lia. }
  apply Rlt_le_trans with (cap (s * s)); [|apply cap_mono; nra].
  assert (Hfit : forall v, 0 <= v <= bpow radix2 501 -> cap (v * v) = rnd (v * v)).
  { intros v Hv. apply cap_inside. apply rnd_below. rewrite Rabs_pos_eq by nra.
    apply Rle_trans with (bpow radix2 501 * bpow radix2 501); [nra|]. rewrite <- bpow_plus. apply bpow_le. lia. }
  rewrite !Hfit by (split; [nra|]; try exact S2; apply Rle_trans with (1 := He2); apply bpow_le; lia).
  pose proof (square_rounding (key e * key e) ltac:(nra)) as [_ R1].
  pose proof (square_rounding (s * s) ltac:(nra)) as [R2 _].
  apply Rle_lt_trans with (1 := R1). apply Rlt_le_trans with (2 := R2).
  assert (H1 : key e * (1 + u53) <= s) by lra.
  assert (H2 : (key e * (1 + u53)) * (key e * (1 + u53)) <= s * s) by (apply Rmult_le_compat; nra).
  assert (H3 : key e * key e * (1 + u53) <= s * s / (1 + u53)).
  { replace (key e * key e * (1 + u53)) with ((key e * (1 + u53)) * (key e * (1 + u53)) / (1 + u53)) by field.
    apply Rmult_le_compat_r; auto. lra. }
  assert (H4 : bpow radix2 (-800) <= key e * key e).
  { replace (-800)%Z with (-400 + -400)%Z by lia. rewrite bpow_plus. apply Rmult_le_compat; lra. }
  assert (H5 : bpow radix2 (-1074) <= bpow radix2 (-800) * bpow radix2 (-200)) by (rewrite <- bpow_plus; apply bpow_le; lia).
  assert (H6 : bpow radix2 (-200) <= / 10 ^ 50).
  { apply Rle_trans with (bpow radix2 (-180)); [apply bpow_le; lia|].
    change (-180)%Z with (Z.opp 180). rewrite bpow_opp, <- IZR_Zpower by lia.
    apply Rinv_le; [lra|]. rewrite pow_IZR. apply IZR_le. vm_compute. discriminate. }
  set (y := key e * key e) in *. set (c := bpow radix2 (-1074)) in *. set (z := s * s / (1 + u53)) in *.
  assert (H7 : c <= y * / 10 ^ 50).
  { apply Rle_trans with (1 := H5). apply Rmult_le_compat; try apply bpow_ge_0; auto. }
  assert (y0 : 0 < y) by (pose proof (bpow_gt_0 radix2 (-800)); lra).
  clearbody y c z. clear - H3 H7 y0.
  assert (y * (u53 / (1 + u53)) + 2 * (y * / 10 ^ 50) < y * u53); [|lra].
  replace (y * (u53 / (1 + u53)) + 2 * (y * / 10 ^ 50)) with (y * (u53 / (1 + u53) + 2 * / 10 ^ 50)) by ring.
  apply Rmult_lt_compat_l; auto. lra.
Qed.
