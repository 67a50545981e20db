(** Differences and middles of doubles. *)
From Coq Require Import ZArith Reals Lia Lra Bool.
From Flocq Require Import Core BinarySingleNaN.
From Verif Require Import Base F64 FloatOrder TreeSearchModel.
Local Open Scope R_scope.

Lemma rnd_format x : generic_format radix2 fexp64 x -> rnd x = x.
Proof. apply round_generic. apply valid_rnd_N. Qed.
Lemma f64_format (x : f64) : generic_format radix2 fexp64 (B2R x).
Proof. apply generic_format_B2R. Qed.
Lemma rnd_abs x : rnd (Rabs x) = Rabs (rnd x).
Proof. unfold rnd. apply round_NE_abs. apply fexp_correct. reflexivity. Qed.
Lemma rnd_below x : Rabs x <= bpow radix2 1023 -> Rabs (rnd x) < bpow radix2 1024.
Proof.
  intros H. rewrite <- rnd_abs. apply Rle_lt_trans with (rnd (bpow radix2 1023)).
  - apply rnd_mono, H.
  - rewrite rnd_format; [apply bpow_lt; lia|]. apply generic_format_bpow. unfold fexp64, SpecFloat.fexp, SpecFloat.emin. lia.
Qed.

Lemma nan_lt x y : f64_lt x y = true -> is_nan x = false /\ is_nan y = false.
Proof. destruct x, y; try discriminate; auto. Qed.
Lemma inf_lt_false x y : f64_lt (f64_abs x) y = true -> is_finite x = true.
Proof. destruct x as [s|s| |s m e H]; auto; destruct y as [t|[]| |t m' e' H']; discriminate. Qed.

Lemma f64_sub_finite x y : is_finite x = true -> is_finite y = true ->
  if Rlt_bool (Rabs (rnd (B2R x - B2R y))) (bpow radix2 1024)
  then is_finite (f64_sub x y) = true /\ B2R (f64_sub x y) = rnd (B2R x - B2R y)
  else is_finite (f64_sub x y) = false.
Proof.
  intros Fx Fy. pose proof (Bminus_correct 53 1024 eq_refl eq_refl mode_NE x y Fx Fy) as H. unfold rnd, fexp64.
  change (round_mode mode_NE) with ZnearestE in H. destruct (Rlt_bool _ _).
  - destruct H as (H1 & H2 & _). split; assumption.
  - destruct H as (H & _). unfold f64_sub. destruct (Bminus mode_NE x y); try reflexivity; discriminate.
Qed.
Lemma f64_add_finite x y : is_finite x = true -> is_finite y = true ->
  if Rlt_bool (Rabs (rnd (B2R x + B2R y))) (bpow radix2 1024)
  then is_finite (f64_add x y) = true /\ B2R (f64_add x y) = rnd (B2R x + B2R y)
  else exists s, f64_add x y = B754_infinity s.
Proof.
  intros Fx Fy. pose proof (Bplus_correct 53 1024 eq_refl eq_refl mode_NE x y Fx Fy) as H. unfold rnd, fexp64.
  change (round_mode mode_NE) with ZnearestE in H. destruct (Rlt_bool _ _).
  - destruct H as (H1 & H2 & _). split; assumption.
  - destruct H as (H & _). unfold f64_add. destruct (Bplus mode_NE x y) as [|s| |]; try discriminate. eauto.
Qed.

(** A difference of ordered numbers grows with their distance. *)
Lemma sub_mono a b c t : is_finite a = true -> is_finite b = true -> is_finite c = true -> B2R a <= B2R b <= B2R c ->
  f64_lt (f64_abs (f64_sub c a)) t = true -> f64_lt (f64_abs (f64_sub c b)) t = true.
Proof.
  intros Fa Fb Fc O H. pose proof (inf_lt_false _ _ H) as FS. destruct (nan_lt _ _ H) as (_ & Nt).
  pose proof (f64_sub_finite c a Fc Fa) as S. pose proof (f64_sub_finite c b Fc Fb) as S'.
  destruct (Rlt_bool_spec (Rabs (rnd (B2R c - B2R a))) (bpow radix2 1024)) as [OV|OV]; [|congruence].
  assert (LE : Rabs (rnd (B2R c - B2R b)) <= Rabs (rnd (B2R c - B2R a))).
  { rewrite <- !rnd_abs. apply rnd_mono. rewrite !Rabs_pos_eq by lra. lra. }
  rewrite Rlt_bool_true in S' by lra. destruct S as (F1 & V1), S' as (F2 & V2).
  assert (A : forall x, is_finite x = true -> is_nan (f64_abs x) = false /\ key (f64_abs x) = Rabs (B2R x)).
  { intros x F. split; [destruct x; auto; discriminate|]. unfold f64_abs. rewrite key_finite by (now rewrite is_finite_Babs). apply B2R_Babs. }
  apply f64_lt_key in H; auto; [|apply A; auto]. apply f64_lt_key; auto; [apply A; auto|].
  rewrite (proj2 (A _ F2)), V2. rewrite (proj2 (A _ F1)), V1 in H. lra.
Qed.

(** Numbers of which the difference is not 0 are different. *)
Lemma sub_zero_lt a b t : is_finite a = true -> is_finite b = true -> B2R a = B2R b -> f64_lt (f64_of_Z 0) t = true ->
  f64_lt (f64_abs (f64_sub b a)) t = true.
Proof.
  intros Fa Fb E T. destruct (nan_lt _ _ T) as (_ & Nt). pose proof (f64_sub_finite b a Fb Fa) as S.
  rewrite E, Rminus_diag_eq in S by auto. assert (R0 : rnd 0 = 0) by (apply round_0; apply valid_rnd_N).
  rewrite R0, Rabs_R0, Rlt_bool_true in S by apply bpow_gt_0. destruct S as (F & V).
  apply f64_lt_key in T; auto. change (key (f64_of_Z 0)) with 0 in T.
  apply f64_lt_key; auto; [destruct (f64_sub b a); auto; discriminate|].
  unfold f64_abs. rewrite key_finite by (now rewrite is_finite_Babs). rewrite B2R_Babs, V, Rabs_R0. exact T.
Qed.

(** ** The middle of two numbers *)
Lemma format_FLT x : generic_format radix2 fexp64 x -> exists m e, x = IZR m * bpow radix2 e /\ (Z.abs m < 2 ^ 53)%Z /\ (-1074 <= e)%Z.
Proof.
  intros H. assert (G : generic_format radix2 (FLT_exp (-1074) 53) x) by exact H.
  apply FLT_format_generic in G; [|reflexivity]. destruct G as [[m e] E1 E2 E3]. cbn in *. exists m, e. rewrite E1. unfold F2R. cbn. auto.
Qed.
Lemma FLT_form m e : (Z.abs m <= 2 ^ 53)%Z -> (-1074 <= e)%Z -> generic_format radix2 fexp64 (IZR m * bpow radix2 e).
Proof.
  intros M E. change fexp64 with (FLT_exp (-1074) 53). destruct (Z.eq_dec (Z.abs m) (2 ^ 53)) as [EQ|NE].
  - assert (P : generic_format radix2 (FLT_exp (-1074) 53) (bpow radix2 (53 + e))) by (apply generic_format_bpow; unfold FLT_exp; lia).
    assert (Rabs (IZR m) * bpow radix2 e = bpow radix2 (53 + e)) as Q.
    { rewrite <- abs_IZR, EQ, bpow_plus. f_equal. }
    unfold Rabs in Q. destruct (Rcase_abs (IZR m)).
    + replace (IZR m * bpow radix2 e) with (- bpow radix2 (53 + e)) by lra. apply generic_format_opp, P.
    + rewrite Q. exact P.
  - apply generic_format_FLT. exists (Float radix2 m e); cbn; auto; lia.
Qed.
Lemma multiple_of_u x : generic_format radix2 fexp64 x -> exists k, x = IZR k * bpow radix2 (-1074).
Proof.
  intros H. destruct (format_FLT x H) as (m & e & -> & _ & E). exists (m * 2 ^ (e + 1074))%Z.
  rewrite mult_IZR, Rmult_assoc. f_equal. rewrite (IZR_Zpower radix2) by lia. rewrite <- bpow_plus. f_equal. lia.
Qed.
Lemma double_format x : generic_format radix2 fexp64 x -> generic_format radix2 fexp64 (2 * x).
Proof.
  intros H. destruct (format_FLT x H) as (m & e & -> & M & E). replace (2 * (IZR m * bpow radix2 e)) with (IZR m * bpow radix2 (e + 1)).
  - apply FLT_form; lia.
  - rewrite bpow_plus. change (bpow radix2 1) with 2. ring.
Qed.

Lemma middle_sum a b m : generic_format radix2 fexp64 a -> generic_format radix2 fexp64 b -> generic_format radix2 fexp64 m ->
  a < m < b -> 2 * a < rnd (a + b) < 2 * b.
Proof.
  intros Ga Gb Gm H. pose proof (round_N_pt radix2 fexp64 (fun x => negb (Z.even x)) (a + b)) as (_ & N).
  specialize (N (2 * m) (double_format m Gm)). fold (rnd (a + b)) in N.
  assert (Rabs (2 * m - (a + b)) < b - a) by (apply Rabs_def1; lra).
  assert (Rabs (rnd (a + b) - (a + b)) < b - a) as D by (eapply Rle_lt_trans; [exact N|assumption]).
  apply Rabs_def2 in D. lra.
Qed.

Lemma middle_real a b m : generic_format radix2 fexp64 a -> generic_format radix2 fexp64 b -> generic_format radix2 fexp64 m ->
  a < m < b -> a < rnd (rnd (a + b) / 2) < b.
Proof.
  intros Ga Gb Gm H. pose proof (middle_sum a b m Ga Gb Gm H) as S. set (s := rnd (a + b)) in *.
  assert (Gs : generic_format radix2 fexp64 s) by (apply generic_format_round; [apply fexp_correct; reflexivity|apply valid_rnd_N]).
  set (u := bpow radix2 (-1074)). assert (U : 0 < u) by apply bpow_gt_0.
  destruct (format_FLT s Gs) as (M & e & Es & HM & HE). destruct (Z.eq_dec e (-1074)) as [->|NE].
  - (* the sum is exact *)
    destruct (multiple_of_u a Ga) as (A & Ea), (multiple_of_u b Gb) as (B & Eb), (multiple_of_u m Gm) as (C & Ec). fold u in Ea, Eb, Ec, Es.
    assert (EX : s = a + b).
    { destruct (Z_le_gt_dec (Z.abs (A + B)) (2 ^ 53)) as [LE|GT].
      - unfold s. apply rnd_format. rewrite Ea, Eb. replace (IZR A * u + IZR B * u) with (IZR (A + B) * u) by (rewrite plus_IZR; ring).
        apply FLT_form; lia.
      - exfalso. assert (Rabs s < IZR (2 ^ 53) * u).
        { rewrite Es, Rabs_mult, (Rabs_pos_eq u) by lra. apply Rmult_lt_compat_r; auto. rewrite <- abs_IZR. apply IZR_lt. lia. }
        assert (IZR (2 ^ 53) * u <= Rabs s).
        { unfold s. rewrite <- rnd_abs. rewrite <- (rnd_format (IZR (2 ^ 53) * u)) by (apply FLT_form; lia). apply rnd_mono.
          rewrite Ea, Eb. replace (IZR A * u + IZR B * u) with (IZR (A + B) * u) by (rewrite plus_IZR; ring).
          rewrite Rabs_mult, (Rabs_pos_eq u), <- abs_IZR by lra. apply Rmult_le_compat_r; [lra|]. apply IZR_le. lia. }
        lra. }
    assert (AC : (A < C)%Z) by (apply lt_IZR; apply Rmult_lt_reg_r with u; auto; lra).
    assert (CB : (C < B)%Z) by (apply lt_IZR; apply Rmult_lt_reg_r with u; auto; lra).
    assert (SM : (A + B = M)%Z).
    { apply eq_IZR. apply Rmult_eq_reg_r with u; [|lra]. rewrite <- Es, EX, Ea, Eb, plus_IZR. ring. }
    pose proof (Z.div_mod (A + B) 2 ltac:(lia)) as DM. pose proof (Z.mod_pos_bound (A + B) 2 ltac:(lia)) as MB.
    set (K := ((A + B) / 2)%Z) in *.
    assert (GK : generic_format radix2 fexp64 (IZR K * u)) by (apply FLT_form; lia).
    assert (GK1 : generic_format radix2 fexp64 (IZR (K + 1) * u)) by (apply FLT_form; lia).
    assert (HS : s / 2 = (IZR (A + B) / 2) * u) by (rewrite EX, Ea, Eb, plus_IZR; lra).
    assert (DR : IZR (A + B) = 2 * IZR K + IZR ((A + B) mod 2)) by (rewrite DM at 1; rewrite plus_IZR, mult_IZR; ring).
    destruct (Z.eq_dec ((A + B) mod 2) 0) as [EV|OD].
    + rewrite EV in DR. assert (s / 2 = IZR K * u) as -> by (rewrite HS, DR; lra). rewrite rnd_format by auto.
      rewrite Ea, Eb. split; apply Rmult_lt_compat_r; auto; apply IZR_lt; lia.
    + assert ((A + B) mod 2 = 1)%Z as O1 by lia. rewrite O1 in DR.
      assert (IZR K * u <= rnd (s / 2)).
      { rewrite <- (rnd_format _ GK) at 1. apply rnd_mono. rewrite HS. apply Rmult_le_compat_r; [apply Rlt_le, U|]. rewrite DR. lra. }
      assert (rnd (s / 2) <= IZR (K + 1) * u).
      { rewrite <- (rnd_format _ GK1). apply rnd_mono. rewrite HS, (plus_IZR K 1). apply Rmult_le_compat_r; [apply Rlt_le, U|]. rewrite DR. lra. }
      assert (a < IZR K * u) by (rewrite Ea; apply Rmult_lt_compat_r; auto; apply IZR_lt; lia).
      assert (IZR (K + 1) * u < b) by (rewrite Eb; apply Rmult_lt_compat_r; auto; apply IZR_lt; lia). lra.
  - assert (s / 2 = IZR M * bpow radix2 (e - 1)) as E.
    { rewrite Es. unfold Zminus. rewrite bpow_plus. change (bpow radix2 (- (1))) with (/ 2). field. }
    assert (generic_format radix2 fexp64 (s / 2)) by (rewrite E; apply FLT_form; lia). rewrite rnd_format by auto. lra.
Qed.

Lemma f64_half x : is_finite x = true -> is_finite (f64_div x (f64_of_Z 2)) = true /\ B2R (f64_div x (f64_of_Z 2)) = rnd (B2R x / 2).
Proof.
  intros F. assert (V : B2R (f64_of_Z 2) = 2) by (apply f64_of_Z_is; lia).
  pose proof (Bdiv_correct 53 1024 eq_refl eq_refl mode_NE x (f64_of_Z 2)) as H. rewrite V in H. specialize (H ltac:(lra)).
  change (round_mode mode_NE) with ZnearestE in H. fold fexp64 in H. fold (rnd (B2R x / 2)) in H.
  assert (Rabs (rnd (B2R x / 2)) < bpow radix2 1024).
  { apply Rle_lt_trans with (Rabs (B2R x)); [|apply abs_B2R_lt_emax].
    rewrite <- rnd_abs. apply Rle_trans with (rnd (Rabs (B2R x))); [apply rnd_mono|rewrite rnd_format; [lra|apply generic_format_abs, f64_format]].
    unfold Rdiv. rewrite Rabs_mult, (Rabs_pos_eq (/ 2)) by lra. pose proof (Rabs_pos (B2R x)). lra. }
  rewrite Rlt_bool_true in H by auto. destruct H as (H1 & H2 & _). split; [etransitivity; [exact H2|exact F]|exact H1].
Qed.

(** The threshold between two values is strictly between them if some double is. *)
Lemma midpoint_between (a b m : f64) : is_finite a = true -> is_finite b = true -> is_finite m = true ->
  Rabs (B2R a) <= bpow radix2 1022 -> Rabs (B2R b) <= bpow radix2 1022 -> B2R a < B2R m < B2R b ->
  is_finite (midpoint a b) = true /\ B2R a < B2R (midpoint a b) < B2R b.
Proof.
  intros Fa Fb Fm Ba Bb H. unfold midpoint. pose proof (f64_add_finite a b Fa Fb) as S.
  assert (Rabs (rnd (B2R a + B2R b)) < bpow radix2 1024).
  { apply rnd_below. apply Rle_trans with (Rabs (B2R a) + Rabs (B2R b)); [apply Rabs_triang|].
    replace (bpow radix2 1023) with (2 * bpow radix2 1022) by (change 1023%Z with (1 + 1022)%Z; rewrite bpow_plus; reflexivity). lra. }
  rewrite Rlt_bool_true in S by auto. destruct S as (F & V).
  destruct (f64_half _ F) as (F2 & V2). split; auto. rewrite V2, V. apply (middle_real _ _ (B2R m)); auto; apply f64_format.
Qed.

(** The threshold between two finite values is not a NaN. *)
Lemma midpoint_number a b : is_finite a = true -> is_finite b = true -> is_nan (midpoint a b) = false.
Proof.
  intros Fa Fb. unfold midpoint. pose proof (f64_add_finite a b Fa Fb) as S. destruct (Rlt_bool _ _).
  - destruct S as (F & _). destruct (f64_half _ F) as (F2 & _). destruct (f64_div (f64_add a b) (f64_of_Z 2)); auto; discriminate.
  - destruct S as (s & ->). now destruct s.
Qed.
