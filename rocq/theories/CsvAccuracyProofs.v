(** Proofs about the accuracy of numbers of any length. *)
From Coq Require Import ZArith List Bool Lia Reals Lra.
From Flocq Require Import Core BinarySingleNaN.
From Verif Require Import Base Par ListFacts F64 CsvNumModel CsvNumSpec CsvNumProofs CsvFloatProofs.
Import ListNotations.
Local Open Scope Z_scope.

Ltac tup := repeat match goal with |- Value _ = Value _ => f_equal | |- (_, _) = (_, _) => f_equal end; auto; try lia.
(** ** The digits kept *)
Lemma int_part_long ip rest : Forall is_digit ip -> isdigit_ascii (head rest) = false ->
  forall x k e, (k <= 17)%nat -> 0 <= e -> e + Z.of_nat (length ip) <= INT_MAX ->
  int_part 0 x (Z.of_nat k) e (ip ++ rest) =
  Value (fold_left push_digit (firstn (17 - k) ip) x, Z.of_nat (Nat.min 17 (k + length ip)),
         e + Z.max 0 (Z.of_nat k + Z.of_nat (length ip) - 17), rest).
Proof.
  intros F Hr. induction F as [|d ip Hd F IH]; intros x k e Hk He Hl.
  - cbn [app length]. rewrite firstn_nil, Nat.add_0_r, Nat.min_r by lia. cbn [fold_left].
    replace (e + _) with e by lia.
    destruct rest as [|c r]; [reflexivity|]. cbn [head] in Hr. cbn [int_part]. rewrite Hr. auto.
  - cbn [app int_part]. apply isdigit_iff in Hd as Hd'. rewrite Hd'. cbn [length] in Hl |- *.
    destruct (Z.ltb_spec (Z.of_nat k) max_digits) as [L|L]; unfold max_digits in L.
    + replace (17 - k)%nat with (S (17 - S k)) by lia. cbn [firstn fold_left].
      assert (E := IH (push_digit x d) (S k) e ltac:(lia) He ltac:(lia)).
      replace (Z.of_nat k + 1) with (Z.of_nat (S k)) by lia.
      transitivity (int_part 0 (push_digit x d) (Z.of_nat (S k)) e (ip ++ rest)).
      { destruct (ip ++ rest) as [|c r]; reflexivity. }
      rewrite E. tup.
    + assert (k = 17)%nat by lia. subst k. cbn [Nat.sub firstn fold_left].
      replace (in_int (e + 1)) with true by (symmetry; unfold in_int; rewrite andb_true_iff, !Z.leb_le; unfold INT_MIN, INT_MAX in *; lia).
      assert (E := IH x 17%nat (e + 1) ltac:(lia) ltac:(lia) ltac:(lia)). cbn [Nat.sub firstn fold_left] in E.
      transitivity (int_part 0 x (Z.of_nat 17) (e + 1) (ip ++ rest)).
      { destruct (ip ++ rest) as [|c r]; reflexivity. }
      rewrite E. tup.
Qed.
Lemma decimal_part_long fp rest : Forall is_digit fp -> isdigit_ascii (head rest) = false ->
  forall x k decs, (k <= 17)%nat ->
  decimal_part x (Z.of_nat k) decs (fp ++ rest) =
  (fold_left push_digit (firstn (17 - k) fp) x, Z.of_nat (Nat.min 17 (k + length fp)),
   decs + Z.of_nat (Nat.min (17 - k) (length fp)), skipn (17 - k) fp ++ rest).
Proof.
  intros F Hr. induction F as [|d fp Hd F IH]; intros x k decs Hk.
  - cbn [app length]. rewrite firstn_nil, skipn_nil, Nat.add_0_r, Nat.min_0_r, Nat.min_r by lia. cbn [fold_left].
    replace (decs + _) with decs by lia.
    destruct rest as [|c r]; [reflexivity|]. cbn [head] in Hr. cbn [decimal_part app]. rewrite Hr, andb_false_r. auto.
  - cbn [app decimal_part]. apply isdigit_iff in Hd as Hd'. rewrite Hd', andb_true_r. cbn [length].
    destruct (Z.ltb_spec (Z.of_nat k) max_digits) as [L|L]; unfold max_digits in L.
    + replace (17 - k)%nat with (S (17 - S k)) by lia. cbn [firstn fold_left skipn].
      replace (Z.of_nat k + 1) with (Z.of_nat (S k)) by lia. rewrite IH by lia.
      tup.
    + assert (k = 17)%nat by lia. subst k. cbn [Nat.sub firstn fold_left skipn].
      tup.
Qed.
Lemma skip_digits_all ds rest : Forall is_digit ds -> isdigit_ascii (head rest) = false ->
  skip_digits (ds ++ rest) = rest.
Proof.
  intros F Hr. induction F as [|d ds Hd F IH]; cbn [app skip_digits].
  - destruct rest as [|c r]; auto. cbn [head] in Hr. cbn [skip_digits]. now rewrite Hr.
  - apply isdigit_iff in Hd. now rewrite Hd.
Qed.

(** ** Relative errors *)
Local Open Scope R_scope.
Definition u53 : R := bpow radix2 (-53).
Lemma u53_small : 0 < u53 <= / 1000000000.
Proof. unfold u53. cbn. lra. Qed.
Definition near_rel (n : nat) (a b : R) : Prop := Rabs (a - b) <= ((1 + u53) ^ n - 1) * Rabs b.
Lemma one_u_ge n : 1 <= (1 + u53) ^ n.
Proof. apply pow_R1_Rle. pose proof u53_small. lra. Qed.
Lemma near_refl n a : near_rel n a a.
Proof.
  unfold near_rel. rewrite Rminus_diag_eq, Rabs_R0 by auto. apply Rmult_le_pos; [|apply Rabs_pos].
  pose proof (one_u_ge n). lra.
Qed.
Lemma near_trans n m a b c : near_rel n a b -> near_rel m b c -> near_rel (n + m) a c.
Proof.
  unfold near_rel. intros H1 H2. rewrite pow_add.
  pose proof (one_u_ge n) as P1. pose proof (one_u_ge m) as P2.
  set (A := (1 + u53) ^ n) in *. set (B := (1 + u53) ^ m) in *.
  assert (Hb : Rabs b <= B * Rabs c).
  { replace b with ((b - c) + c) at 1 by ring. eapply Rle_trans; [apply Rabs_triang|]. lra. }
  replace (a - c) with ((a - b) + (b - c)) by ring. eapply Rle_trans; [apply Rabs_triang|].
  assert ((A - 1) * Rabs b <= (A - 1) * (B * Rabs c)) by (apply Rmult_le_compat_l; lra). lra.
Qed.
Lemma near_mono n m a b : (n <= m)%nat -> near_rel n a b -> near_rel m a b.
Proof.
  intros L H. unfold near_rel in *. eapply Rle_trans; [exact H|]. apply Rmult_le_compat_r; [apply Rabs_pos|].
  assert ((1 + u53) ^ n <= (1 + u53) ^ m); [|lra]. apply Rle_pow; auto. pose proof u53_small. lra.
Qed.
Lemma near_mult n a b c : near_rel n a b -> near_rel n (a * c) (b * c).
Proof.
  unfold near_rel. intros H. replace (a * c - b * c) with ((a - b) * c) by ring. rewrite !Rabs_mult.
  rewrite <- Rmult_assoc. apply Rmult_le_compat_r; [apply Rabs_pos|auto].
Qed.
Lemma near_opp n a b : near_rel n a b -> near_rel n (- a) (- b).
Proof.
  unfold near_rel. intros H. replace (- a - - b) with (- (a - b)) by ring. rewrite !Rabs_Ropp. auto.
Qed.
Lemma near_plus n a b d : near_rel n a b -> 0 <= b -> 0 <= d -> near_rel n (a + d) (b + d).
Proof.
  unfold near_rel. intros H Hb Hd. replace (a + d - (b + d)) with (a - b) by ring.
  rewrite (Rabs_pos_eq b) in H by auto. rewrite (Rabs_pos_eq (b + d)) by lra.
  eapply Rle_trans; [exact H|]. apply Rmult_le_compat_l; [pose proof (one_u_ge n); lra|lra].
Qed.
Lemma near_inv p P : 0 < P -> near_rel 1 p P -> 0 < p /\ near_rel 2 (/ p) (/ P).
Proof.
  unfold near_rel. intros HP H. pose proof u53_small as U. rewrite (Rabs_pos_eq P) in H by lra.
  rewrite pow_1 in H. apply Rabs_le_inv in H.
  assert (Hp : P * (1 - u53) <= p) by nra. assert (Pp : 0 < p) by nra. split; auto.
  replace (/ p - / P) with ((P - p) * (/ p * / P)) by (field; lra).
  rewrite Rabs_mult, (Rabs_pos_eq (/ p * / P)).
  2:{ apply Rlt_le, Rmult_lt_0_compat; apply Rinv_0_lt_compat; auto. }
  rewrite (Rabs_pos_eq (/ P)) by (apply Rlt_le, Rinv_0_lt_compat; auto).
  assert (A : Rabs (P - p) <= u53 * P) by (apply Rabs_le; nra).
  rewrite <- Rmult_assoc. apply Rmult_le_compat_r; [apply Rlt_le, Rinv_0_lt_compat; auto|].
  apply Rmult_le_reg_r with p; auto. rewrite Rmult_assoc, Rinv_l by lra. rewrite Rmult_1_r.
  eapply Rle_trans; [exact A|]. cbn [pow]. nra.
Qed.
Lemma pow_u n : (n <= 10)%nat -> (1 + u53) ^ n - 1 <= / 100.
Proof.
  intros L. apply Rle_trans with ((1 + u53) ^ 10 - 1).
  - assert ((1 + u53) ^ n <= (1 + u53) ^ 10); [|lra]. apply Rle_pow; auto. pose proof u53_small. lra.
  - apply Rle_trans with ((1 + / 1000000000) ^ 10 - 1); [|lra].
    assert ((1 + u53) ^ 10 <= (1 + / 1000000000) ^ 10); [|lra]. apply pow_incr. pose proof u53_small. lra.
Qed.
Lemma near_half n a b : (n <= 10)%nat -> near_rel n a b -> / 2 * Rabs b <= Rabs a <= 2 * Rabs b.
Proof.
  unfold near_rel. intros L H. pose proof (pow_u n L) as P. pose proof (Rabs_pos b).
  assert (Rabs (a - b) <= / 2 * Rabs b) by nra.
  split.
  - pose proof (Rabs_triang_inv b a) as T. rewrite Rabs_minus_sym in T. lra.
  - pose proof (Rabs_triang_inv a b). lra.
Qed.
Lemma near_zero n a : near_rel n a 0 -> a = 0.
Proof.
  unfold near_rel. rewrite Rabs_R0, Rmult_0_r, Rminus_0_r. intros H.
  destruct (Req_dec a 0); auto. apply Rabs_pos_lt in H0. lra.
Qed.
Lemma rnd_near a : a = 0 \/ bpow radix2 (-1000) <= Rabs a -> near_rel 1 (rnd a) a.
Proof. intros H. unfold near_rel. rewrite pow_1. replace (1 + u53 - 1) with u53 by ring. apply rnd_error; auto. Qed.

Lemma bpow_double e : bpow radix2 (e + 1) = 2 * bpow radix2 e.
Proof. rewrite bpow_plus, Rmult_comm. reflexivity. Qed.
Lemma pow20 : 10 ^ 20 = IZR (10 ^ 20).
Proof. rewrite pow_IZR. reflexivity. Qed.
Lemma tiny_le x : / 10 ^ 20 <= x -> bpow radix2 (-1000) <= x.
Proof.
  intros H. eapply Rle_trans; [|exact H]. apply Rle_trans with (bpow radix2 (- (100))); [apply bpow_le; lia|].
  rewrite bpow_opp, pow20. change (bpow radix2 100) with (IZR (2 ^ 100)).
  apply Rinv_le_contravar; [apply IZR_lt; reflexivity|]. apply IZR_le. vm_compute. discriminate.
Qed.
Lemma big_ge x : x <= 10 ^ 20 -> x <= bpow radix2 1000.
Proof.
  intros H. eapply Rle_trans; [exact H|]. apply Rle_trans with (bpow radix2 100); [|apply bpow_le; lia].
  rewrite pow20. change (bpow radix2 100) with (IZR (2 ^ 100)). apply IZR_le. vm_compute. discriminate.
Qed.

(** ** The kept digits as a number *)
Lemma push_near x r M d n : is x r -> near_rel n r (IZR M) -> (n <= 8)%nat -> (0 <= M < 10 ^ 16)%Z -> is_digit d ->
  exists r', is (push_digit x d) r' /\ near_rel (n + 2) r' (IZR (M * 10 + (d - 48))).
Proof.
  intros Hx Hr Hn HM Hd. unfold is_digit in Hd.
  assert (M1 : 0 <= IZR M <= 10 ^ 16).
  { split; [apply IZR_le; lia|]. rewrite pow_IZR. apply IZR_le. change (Z.of_nat 16) with 16%Z. lia. }
  pose proof (near_half n r (IZR M) ltac:(lia) Hr) as Hh. rewrite (Rabs_pos_eq (IZR M)) in Hh by lra.
  assert (M2 : M = 0%Z \/ 1 <= IZR M) by (destruct (Z.eq_dec M 0); [auto|right; apply IZR_le; lia]).
  assert (Hr10 : Rabs (r * 10) = Rabs r * 10) by (rewrite Rabs_mult, (Rabs_pos_eq 10); lra).
  assert (I1 : is (f64_mul x (f64_of_Z 10)) (rnd (r * 10))).
  { apply f64_mul_is; auto; [apply (f64_of_Z_is 10); lia|]. apply big_ge. rewrite Hr10. lra. }
  assert (N1 : near_rel (1 + n) (rnd (r * 10)) (IZR M * 10)).
  { apply near_trans with (r * 10); [|apply near_mult; auto]. apply rnd_near.
    destruct M2 as [->|M2]; [left; apply near_zero in Hr; lra|right; apply tiny_le; lra]. }
  set (y := rnd (r * 10)) in *.
  assert (D0 : 0 <= IZR (d - 48) <= 9) by (split; apply IZR_le; lia).
  assert (N2 : near_rel (1 + n) (y + IZR (d - 48)) (IZR M * 10 + IZR (d - 48))) by (apply near_plus; auto; lra).
  pose proof (near_half (1 + n) _ _ ltac:(lia) N2) as Hh2. rewrite (Rabs_pos_eq (IZR M * 10 + IZR (d - 48))) in Hh2 by lra.
  exists (rnd (y + IZR (d - 48))). split.
  - apply f64_add_is; auto; [apply f64_of_Z_is; lia|]. apply big_ge. lra.
  - replace (n + 2)%nat with (1 + (1 + n))%nat by lia. rewrite plus_IZR, mult_IZR.
    apply near_trans with (y + IZR (d - 48)); auto. apply rnd_near.
    destruct (Req_dec (IZR M * 10 + IZR (d - 48)) 0) as [Z0|Z0].
    + left. rewrite Z0 in N2. eapply near_zero; eauto.
    + right. apply tiny_le. assert (1 <= IZR M * 10 + IZR (d - 48)); [|lra].
      rewrite <- mult_IZR, <- plus_IZR in *. apply IZR_le. apply not_0_IZR in Z0 || idtac.
      assert ((M * 10 + (d - 48))%Z <> 0%Z) by (intros Q; apply Z0; rewrite Q; auto). lia.
Qed.
Lemma pushes_exact l : Forall is_digit l -> forall x m k, (k + length l <= 15)%nat -> (0 <= m < 10 ^ Z.of_nat k)%Z ->
  is x (IZR m) -> is (fold_left push_digit l x) (IZR (value_from m l)).
Proof.
  induction 1 as [|d l Hd F IH]; intros x m k Hk Hm Hx; auto. cbn [fold_left value_from length] in *.
  pose proof (pow15 (S k) ltac:(lia)) as P.
  assert (Pk : (10 ^ Z.of_nat (S k) = 10 * 10 ^ Z.of_nat k)%Z) by (rewrite Nat2Z.inj_succ, Z.pow_succ_r; lia).
  pose proof Hd as D. unfold is_digit in D.
  apply (IH _ _ (S k)); [lia|lia|]. apply push_digit_is; auto; lia.
Qed.
Lemma pushes_near l : Forall is_digit l -> (length l <= 17)%nat ->
  exists r, is (fold_left push_digit l (f64_of_Z 0)) r /\ near_rel 4 r (IZR (decimal_value l)).
Proof.
  intros F L. rewrite <- (firstn_skipn 15 l). rewrite fold_left_app. unfold decimal_value.
  change (fold_left (fun n d => (n * 10 + (d - 48))%Z) (firstn 15 l ++ skipn 15 l) 0%Z)
    with (value_from 0 (firstn 15 l ++ skipn 15 l)). rewrite value_from_app.
  assert (F1 : Forall is_digit (firstn 15 l)) by (apply Forall_forall; intros z Hz; apply (proj1 (Forall_forall _ _) F); eapply in_firstn; eauto).
  assert (F2 : Forall is_digit (skipn 15 l)) by (rewrite <- (firstn_skipn 15 l) in F; apply Forall_app in F; tauto).
  assert (L1 : (length (firstn 15 l) <= 15)%nat) by (rewrite firstn_length; lia).
  assert (L2 : (length (skipn 15 l) <= 2)%nat) by (rewrite skipn_length; lia).
  pose proof (pushes_exact _ F1 (f64_of_Z 0) 0 0 ltac:(lia) ltac:(cbn; lia) (f64_of_Z_is 0 ltac:(lia))) as E.
  pose proof (value_from_bound 0 _ 0 ltac:(cbn; lia) F1) as B. cbn [Nat.add] in B.
  pose proof (pow15 _ L1) as P.
  set (x := fold_left push_digit (firstn 15 l) (f64_of_Z 0)) in *. set (m := value_from 0 (firstn 15 l)) in *.
  clearbody x m. assert (Hm : (0 <= m < 10 ^ 15)%Z) by lia. clear B P.
  destruct (skipn 15 l) as [|d [|d' [|]]]; cbn [length] in L2; try lia; cbn [fold_left value_from].
  - eexists. split; [exact E|]. apply near_refl.
  - inversion F2; subst. destruct (push_near x (IZR m) m d 0 E (near_refl _ _)) as (r & I & N); auto; try lia.
    exists r. split; auto. revert N. apply near_mono. lia.
  - inversion F2 as [|? ? D1 F3]; subst. inversion F3 as [|? ? D2 _]; subst.
    destruct (push_near x (IZR m) m d 0 E (near_refl _ _)) as (r & I & N); auto; try lia.
    unfold is_digit in D1.
    destruct (push_near _ r _ d' 2 I N) as (r' & I' & N'); auto; try lia. exists r'. auto.
Qed.

(** ** Scaling *)
Lemma forallb_zrange (f : Z -> bool) n : forallb f (zrange n) = true -> forall k, (0 <= k < n)%Z -> f k = true.
Proof. rewrite forallb_forall. intros H k Hk. apply H. now apply in_zrange. Qed.
Lemma powers_finite_ok : forallb (fun k => is_finite (f64_of_Z (10 ^ k))) (zrange 309) = true.
Proof. vm_compute. reflexivity. Qed.
Lemma pow10_is k : (0 <= k <= 308)%Z -> is (f64_of_Z (10 ^ k)) (rnd (IZR (10 ^ k))).
Proof.
  intros H. pose proof (forallb_zrange (fun k => is_finite (f64_of_Z (10 ^ k))) 309 powers_finite_ok k ltac:(lia)) as F. cbv beta in F.
  set (z := (10 ^ k)%Z) in *.
  pose proof (binary_normalize_correct 53 1024 _ _ mode_NE z 0 false) as E.
  cbn zeta in E. fold (f64_of_Z z) in E.
  assert (G : F2R (Float radix2 z 0) = IZR z) by (unfold F2R; cbn; lra). rewrite G in E.
  change (round radix2 _ (round_mode mode_NE) (IZR z)) with (rnd (IZR z)) in E.
  split; auto. destruct (Rlt_bool _ _); [apply E|]. exfalso.
  destruct (f64_of_Z z); cbn in E, F; try discriminate;
    discriminate.
Qed.
Lemma pow10_pos k : (0 <= k)%Z -> 1 <= IZR (10 ^ k).
Proof. intros. apply IZR_le. assert (0 < 10 ^ k)%Z by (apply Z.pow_pos_nonneg; lia). lia. Qed.
Lemma pow10_near k : (0 <= k)%Z -> near_rel 1 (rnd (IZR (10 ^ k))) (IZR (10 ^ k)).
Proof.
  intros H. pose proof (pow10_pos k H). apply rnd_near. right. apply tiny_le. rewrite Rabs_pos_eq by lra. lra.
Qed.
Lemma powerRZ_pos e : (0 <= e)%Z -> powerRZ 10 e = IZR (10 ^ e).
Proof.
  intros H. destruct e; try lia; [reflexivity|]. unfold powerRZ. rewrite pow_IZR. f_equal. rewrite positive_nat_Z. auto.
Qed.
Lemma powerRZ_neg' e : (e <= 0)%Z -> powerRZ 10 e = / IZR (10 ^ (- e)).
Proof.
  intros H. destruct e as [|e|e]; try lia; [cbn; lra|]. cbn [powerRZ Z.opp]. rewrite pow_IZR. do 2 f_equal.
  rewrite positive_nat_Z. auto.
Qed.
Lemma table_in k : (0 <= k <= 308)%Z -> table k = Some (f64_of_Z (10 ^ k)).
Proof.
  intros Hk. unfold table. replace ((0 <=? k)%Z && (k <=? 308)%Z)%bool with true; auto.
  symmetry. rewrite andb_true_iff, !Z.leb_le. lia.
Qed.
Lemma pow_compare : (10 ^ 17 * 2 ^ 999 <=? 10 ^ 330)%Z = true.
Proof. vm_compute. reflexivity. Qed.
Lemma bpow_neg k : (0 <= k)%Z -> bpow radix2 (- k) = / IZR (2 ^ k).
Proof. intros. rewrite bpow_opp. f_equal. symmetry. exact (IZR_Zpower radix2 k H). Qed.
Lemma tiny_product N e : (Z.abs N < 10 ^ 17)%Z -> (e <= -330)%Z -> Rabs (IZR N * powerRZ 10 e) < bpow radix2 (-999).
Proof.
  intros HN He. pose proof pow_compare as C. apply Z.leb_le in C.
  rewrite powerRZ_neg' by lia. rewrite Rabs_mult, <- abs_IZR.
  assert (P0 : 0 < IZR (10 ^ (- e))) by (apply IZR_lt, Z.pow_pos_nonneg; lia).
  assert (P1 : 0 < IZR (2 ^ 999)) by (apply IZR_lt, Z.pow_pos_nonneg; lia).
  rewrite Rabs_pos_eq by (apply Rlt_le, Rinv_0_lt_compat; auto).
  change (-999)%Z with (- (999))%Z. rewrite (bpow_neg 999) by lia.
  assert (P : (10 ^ 330 <= 10 ^ (- e))%Z) by (apply Z.pow_le_mono_r; lia).
  set (A := (10 ^ 17)%Z) in *. set (B := (2 ^ 999)%Z) in *. set (D := (10 ^ 330)%Z) in *. set (F := (10 ^ (- e))%Z) in *.
  clearbody A B D F. apply lt_IZR in P1 as P2.
  apply Rmult_lt_reg_r with (IZR F); auto. rewrite Rmult_assoc, Rinv_l, Rmult_1_r by lra.
  apply Rmult_lt_reg_l with (IZR B); auto. rewrite <- Rmult_assoc, Rinv_r, Rmult_1_l by lra.
  rewrite <- mult_IZR. apply IZR_lt. nia.
Qed.
Lemma div_near x a N y P (p : R) n m : is x a -> near_rel n a N -> is y p -> 0 < P -> near_rel m (/ p) (/ P) -> 0 < p ->
  (n + m <= 8)%nat -> N / P = 0 \/ bpow radix2 (-999) <= Rabs (N / P) -> Rabs (N / P) <= bpow radix2 999 ->
  is (f64_div x y) (rnd (a / p)) /\ near_rel (1 + (m + n)) (rnd (a / p)) (N / P).
Proof.
  intros Hx Ha Hy HP Hp Pp L Lo Hi.
  assert (A : near_rel (m + n) (a / p) (N / P)).
  { unfold Rdiv. apply near_trans with (a * / P).
    - rewrite (Rmult_comm a), (Rmult_comm a). apply near_mult. auto.
    - apply near_mult; auto. }
  pose proof (near_half (m + n) _ _ ltac:(lia) A) as Hh.
  assert (B1 : bpow radix2 1000 = 2 * bpow radix2 999) by exact (bpow_double 999).
  assert (B2 : bpow radix2 (-999) = 2 * bpow radix2 (-1000)) by exact (bpow_double (-1000)).
  split.
  - apply f64_div_is; auto; [lra|]. lra.
  - apply near_trans with (a / p); auto. apply rnd_near. destruct Lo as [Lo|Lo].
    + left. rewrite Lo in A. eapply near_zero; eauto.
    + right. lra.
Qed.
Lemma scale_near x a N e : is x a -> near_rel 4 a (IZR N) -> (Z.abs N < 10 ^ 17)%Z -> (e <= 308)%Z ->
  N = 0%Z \/ bpow radix2 (-999) <= Rabs (IZR N * powerRZ 10 e) <= bpow radix2 999 ->
  exists y r, scale x e = Value y /\ is y r /\ near_rel 8 r (IZR N * powerRZ 10 e).
Proof.
  intros Hx Ha HN He HV. unfold scale.
  assert (V0 : IZR N * powerRZ 10 e = 0 \/ bpow radix2 (-999) <= Rabs (IZR N * powerRZ 10 e)).
  { destruct HV as [->|HV]; [left; lra|right; lra]. }
  assert (V1 : Rabs (IZR N * powerRZ 10 e) <= bpow radix2 999).
  { destruct HV as [->|HV]; [rewrite Rmult_0_l, Rabs_R0; apply bpow_ge_0|lra]. }
  assert (B1 : bpow radix2 1000 = 2 * bpow radix2 999) by exact (bpow_double 999).
  assert (B2 : bpow radix2 (-999) = 2 * bpow radix2 (-1000)) by exact (bpow_double (-1000)).
  rewrite !Z.gtb_ltb. replace (308 <? e)%Z with false by (symmetry; apply Z.ltb_ge; lia).
  destruct (Z.ltb_spec 0 e) as [E0|E0].
  - rewrite table_in by lia.
    assert (A : near_rel (1 + 4) (a * rnd (IZR (10 ^ e))) (IZR N * powerRZ 10 e)).
    { rewrite powerRZ_pos by lia. apply near_trans with (a * IZR (10 ^ e)); [|apply near_mult; auto].
      rewrite !(Rmult_comm a). apply near_mult. apply pow10_near. lia. }
    pose proof (near_half (1 + 4) _ _ ltac:(lia) A) as Hh.
    assert (I : is (f64_mul x (f64_of_Z (10 ^ e))) (rnd (a * rnd (IZR (10 ^ e))))).
    { apply f64_mul_is; auto; [apply pow10_is; lia|lra]. }
    eexists _, _. split; [apply (is_value _ _ I)|]. split; [exact I|].
    apply near_mono with (1 + (1 + 4))%nat; [lia|]. eapply near_trans; [|exact A]. apply rnd_near.
    destruct V0 as [V0|V0]; [left; rewrite V0 in A; eapply near_zero; eauto|right; lra].
  - destruct (Z.ltb_spec e (-308)) as [E1|E1].
    + destruct (Z.ltb_spec e (-616)) as [E2|E2].
      * assert (N = 0%Z).
        { destruct HV as [|HV]; auto. exfalso. pose proof (tiny_product N e HN ltac:(lia)). lra. }
        subst N. exists (f64_of_Z 0), 0. split; [reflexivity|]. split; [apply (f64_of_Z_is 0); lia|].
        rewrite Rmult_0_l. apply near_refl.
      * rewrite !table_in by lia.
        (* first division, by an exact power unless the number is 0 *)
        set (j := (-308 - e)%Z). assert (Hj : (1 <= j <= 308)%Z) by (unfold j; lia).
        assert (Ev : powerRZ 10 e = / IZR (10 ^ j) * / IZR (10 ^ 308)).
        { rewrite powerRZ_neg' by lia. replace (- e)%Z with (j + 308)%Z by (unfold j; lia).
          rewrite Z.pow_add_r, mult_IZR by lia. apply Rinv_mult. }
        pose proof (pow10_pos j ltac:(lia)) as Pj.
        assert (D1 : exists q, is (f64_div x (f64_of_Z (10 ^ j))) q /\ near_rel 5 q (IZR N / IZR (10 ^ j))).
        { destruct (Z.eq_dec N 0) as [N0|N0].
          - subst N. destruct (near_inv (rnd (IZR (10 ^ j))) (IZR (10 ^ j)) ltac:(lra) (pow10_near j ltac:(lia))) as (Pp & Np).
            assert (a = 0) by (eapply near_zero; eauto). subst a.
            assert (Z0 : (0 / IZR (10 ^ j) = 0)%R) by (unfold Rdiv; ring).
            destruct (div_near x 0 0 (f64_of_Z (10 ^ j)) (IZR (10 ^ j)) (rnd (IZR (10 ^ j))) 0 2 Hx (near_refl _ _)
                        (pow10_is j ltac:(lia)) ltac:(lra) Np Pp ltac:(lia)) as (I & Nn).
            { left. auto. }
            { rewrite Z0, Rabs_R0. apply bpow_ge_0. }
            eexists. split; [exact I|]. revert Nn. apply near_mono. lia.
          - assert (J17 : (j <= 22)%Z).
            { destruct HV as [|HV]; [contradiction|]. destruct (Z_le_gt_dec j 22); auto. exfalso.
              pose proof (tiny_product N e HN ltac:(unfold j in *; lia)). lra. }
            destruct (div_near x a (IZR N) (f64_of_Z (10 ^ j)) (IZR (10 ^ j)) (IZR (10 ^ j)) 4 0 Hx Ha
                        (f64_pow10 j ltac:(lia)) ltac:(lra) (near_refl _ _) ltac:(lra) ltac:(lia)) as (I & Nn).
            { right. unfold Rdiv. rewrite Rabs_mult, <- abs_IZR, (Rabs_pos_eq (/ _)) by (apply Rlt_le, Rinv_0_lt_compat; lra).
              apply Rle_trans with (1 * / IZR (10 ^ 22)).
              - apply Rle_trans with (bpow radix2 (- (90))); [apply bpow_le; lia|]. rewrite (bpow_neg 90), Rmult_1_l by lia.
                apply Rinv_le_contravar; [apply IZR_lt; reflexivity|]. apply IZR_le. vm_compute. discriminate.
              - apply Rmult_le_compat; [lra|apply Rlt_le, Rinv_0_lt_compat, IZR_lt; reflexivity|apply IZR_le; lia|].
                apply Rinv_le_contravar; [lra|]. apply IZR_le. apply Z.pow_le_mono_r; lia. }
            { unfold Rdiv. rewrite Rabs_mult, <- abs_IZR, (Rabs_pos_eq (/ _)) by (apply Rlt_le, Rinv_0_lt_compat; lra).
              apply Rle_trans with (IZR (10 ^ 17) * 1).
              - apply Rmult_le_compat; [apply IZR_le; lia|apply Rlt_le, Rinv_0_lt_compat; lra|apply IZR_le; lia|].
                rewrite <- Rinv_1. apply Rinv_le_contravar; lra.
              - rewrite Rmult_1_r. apply Rle_trans with (bpow radix2 90); [|apply bpow_le; lia].
                change (bpow radix2 90) with (IZR (2 ^ 90)). apply IZR_le. vm_compute. discriminate. }
            eexists. split; [exact I|]. exact Nn. }
        destruct D1 as (q & I1 & N1). cbn iota beta.
        destruct (near_inv (rnd (IZR (10 ^ 308))) (IZR (10 ^ 308)) ltac:(apply IZR_lt; reflexivity) (pow10_near 308 ltac:(lia))) as (Pp & Np).
        assert (Eq : IZR N * powerRZ 10 e = IZR N / IZR (10 ^ j) / IZR (10 ^ 308)) by (rewrite Ev; unfold Rdiv; ring).
        rewrite Eq in *.
        destruct (div_near _ q (IZR N / IZR (10 ^ j)) (f64_of_Z (10 ^ 308)) (IZR (10 ^ 308)) _ 5 2 I1 N1
                    (pow10_is 308 ltac:(lia)) ltac:(apply IZR_lt; reflexivity) Np Pp ltac:(lia) V0 V1) as (I & Nn).
        eexists _, _. split; [apply (is_value _ _ I)|]. split; [exact I|]. exact Nn.
    + rewrite table_in by lia. pose proof (pow10_pos (- e) ltac:(lia)) as Pj.
      destruct (near_inv (rnd (IZR (10 ^ (- e)))) (IZR (10 ^ (- e))) ltac:(lra) (pow10_near (- e) ltac:(lia))) as (Pp & Np).
      assert (Eq : IZR N * powerRZ 10 e = IZR N / IZR (10 ^ (- e))) by (rewrite powerRZ_neg' by lia; reflexivity).
      rewrite Eq in *.
      destruct (div_near x a (IZR N) (f64_of_Z (10 ^ (- e))) (IZR (10 ^ (- e))) _ 4 2 Hx Ha
                  (pow10_is (- e) ltac:(lia)) ltac:(lra) Np Pp ltac:(lia) V0 V1) as (I & Nn).
      eexists _, _. split; [apply (is_value _ _ I)|]. split; [exact I|]. revert Nn. apply near_mono. lia.
Qed.
Lemma pow8 : (1 + u53) ^ 8 - 1 <= 9 * u53.
Proof.
  pose proof u53_small as U. set (u := u53) in *. clearbody u.
  replace ((1 + u) ^ 8) with ((((1 + u) * (1 + u)) * ((1 + u) * (1 + u))) * (((1 + u) * (1 + u)) * ((1 + u) * (1 + u)))) by ring.
  assert (A : 0 <= (1 + u) * (1 + u) <= 1 + 21 / 10 * u) by nra. set (w := (1 + u) * (1 + u)) in *. clearbody w.
  assert (B : 0 <= w * w <= 1 + 43 / 10 * u) by nra. set (z := w * w) in *. clearbody z. nra.
Qed.
Local Open Scope Z_scope.

Lemma value_from_split m a b : 0 <= m -> Forall is_digit a -> Forall is_digit b ->
  exists t, value_from m (a ++ b) = value_from m a * 10 ^ Z.of_nat (length b) + t /\ 0 <= t < 10 ^ Z.of_nat (length b).
Proof.
  intros Hm Fa Fb. rewrite value_from_app. pose proof (value_from_mono m a Hm Fa) as M.
  revert M. generalize (value_from m a) as q. induction Fb as [|d b Hd Fb IH]; intros q Hq.
  - exists 0. cbn [value_from fold_left length]. change (10 ^ Z.of_nat 0) with 1. lia.
  - unfold is_digit in Hd. destruct (IH (q * 10 + (d - 48)) ltac:(lia)) as (t & E & T).
    exists ((d - 48) * 10 ^ Z.of_nat (length b) + t). cbn [length].
    rewrite Nat2Z.inj_succ, Z.pow_succ_r by lia. split; [change (value_from q (d :: b)) with (value_from (q * 10 + (d - 48)) b); rewrite E; ring|].
    assert (0 < 10 ^ Z.of_nat (length b)) by (apply Z.pow_pos_nonneg; lia). nia.
Qed.

Lemma kept_value ds e positive : Forall is_digit ds ->
  let N := signed positive (decimal_value (firstn 17 ds)) in
  let e' := e + Z.max 0 (Z.of_nat (length ds) - 17) in
  let v := (IZR (signed positive (decimal_value ds)) * powerRZ 10 e)%R in
  let v' := (IZR N * powerRZ 10 e')%R in
  (Rabs (v' - v) <= dropped e (length ds))%R /\ (Rabs v' <= Rabs v)%R /\ (N = 0 \/ (Rabs v <= 2 * Rabs v')%R).
Proof.
  intros F N e' v v'.
  assert (F1 : Forall is_digit (firstn 17 ds)) by (apply Forall_forall; intros z Hz; apply (proj1 (Forall_forall _ _) F); eapply in_firstn; eauto).
  assert (F2 : Forall is_digit (skipn 17 ds)) by (rewrite <- (firstn_skipn 17 ds) in F; apply Forall_app in F; tauto).
  destruct (value_from_split 0 (firstn 17 ds) (skipn 17 ds) ltac:(lia) F1 F2) as (t & E & T).
  rewrite firstn_skipn in E. change (value_from 0 ds) with (decimal_value ds) in E.
  change (value_from 0 (firstn 17 ds)) with (decimal_value (firstn 17 ds)) in E.
  rewrite skipn_length in *.
  assert (N0 : 0 <= decimal_value (firstn 17 ds)) by (apply (value_from_mono 0); auto; lia).
  subst N. set (n := decimal_value (firstn 17 ds)) in *. set (D := decimal_value ds) in *. clearbody n D.
  set (j := Z.of_nat (length ds - 17)) in *.
  assert (Ee : e' = e + j) by (unfold e', j; lia).
  assert (P10 : (0 < powerRZ 10 e)%R) by (apply powerRZ_lt; lra).
  assert (Pj : (powerRZ 10 e' = powerRZ 10 e * IZR (10 ^ j))%R).
  { rewrite Ee, powerRZ_add by lra. f_equal. apply powerRZ_pos. unfold j. lia. }
  assert (J0 : 0 < 10 ^ j) by (apply Z.pow_pos_nonneg; unfold j; lia).
  assert (Va : Rabs v = (IZR D * powerRZ 10 e)%R).
  { unfold v. rewrite Rabs_mult, (Rabs_pos_eq (powerRZ _ _)) by lra. f_equal. rewrite <- abs_IZR. f_equal. unfold signed. destruct positive; nia. }
  assert (Va' : Rabs v' = (IZR (n * 10 ^ j) * powerRZ 10 e)%R).
  { unfold v'. rewrite Pj, mult_IZR. rewrite Rabs_mult, <- abs_IZR.
    rewrite (Rabs_pos_eq (powerRZ 10 e * IZR (10 ^ j))) by (apply Rmult_le_pos; [lra|apply IZR_le; lia]).
    replace (Z.abs (signed positive n)) with n by (unfold signed; destruct positive; lia). ring. }
  split; [|split].
  - assert (Dv : Rabs (v' - v) = (IZR t * powerRZ 10 e)%R).
    { unfold v', v. rewrite Pj. rewrite E. unfold signed.
      destruct positive; rewrite ?opp_IZR, plus_IZR, mult_IZR.
      - replace (_ - _)%R with (- (IZR t * powerRZ 10 e))%R by ring. rewrite Rabs_Ropp. apply Rabs_pos_eq.
        apply Rmult_le_pos; [apply IZR_le; lia|lra].
      - replace (_ - _)%R with (IZR t * powerRZ 10 e)%R by ring. apply Rabs_pos_eq.
        apply Rmult_le_pos; [apply IZR_le; lia|lra]. }
    rewrite Dv. unfold dropped. destruct (Z.ltb_spec 17 (Z.of_nat (length ds))) as [L|L].
    + replace (e + Z.of_nat (length ds) - 17) with e' by (unfold e'; lia). rewrite Pj, Rmult_comm.
      apply Rmult_le_compat_l; [lra|]. apply IZR_le. lia.
    + assert (j = 0) by (unfold j; lia). assert (t = 0) by (rewrite H in T; change (10 ^ 0) with 1 in T; lia). subst t. lra.
  - rewrite Va, Va'. apply Rmult_le_compat_r; [lra|]. apply IZR_le. lia.
  - destruct (Z.eq_dec n 0) as [Z0|Z0]; [left; rewrite Z0; unfold signed; destruct positive; auto|right].
    rewrite Va, Va'. rewrite <- Rmult_assoc, <- mult_IZR. apply Rmult_le_compat_r; [lra|]. apply IZR_le. nia.
Qed.

Lemma char_to_double_accurate cfg l m e k : usual cfg -> number_text cfg l m e k -> short_exponents cfg l ->
  Z.of_nat (length l) <= 2 ^ 30 ->
  m = 0 \/ (bpow radix2 (-998) <= Rabs (IZR m * powerRZ 10 e) <= bpow radix2 998)%R ->
  e + Z.max 0 (Z.of_nat k - 17) <= 308 ->
  exists x, char_to_double cfg l = Value (x, []) /\ is_finite x = true /\
    (Rabs (B2R x - IZR m * powerRZ 10 e) <= 9 * bpow radix2 (-53) * Rabs (IZR m * powerRZ 10 e) + dropped e k)%R.
Proof.
  intros (Ud & Us & Ut & Une) (sp1 & s & ip & fr & ex & sp2 & positive & El & F1 & F2 & Hs & Hip
    & fp & Hfp & Hfr & Ek & Kpos & Em & Hex) Hsh Hlen Hv He.
  rewrite char_to_double_eq. cbn zeta.
  pose proof Ud as (Rd & Nd & Sd & Pd & Md). pose proof Us as (Rs & Ns & Ss & Ps & Ms).
  assert (Hc : forall c, toupper_ascii c = toupper_ascii (sci cfg) ->
             ~ is_digit c /\ ~ is_space c /\ c <> decimal cfg).
  { intros c U. split; [|split].
    - intros D. pose proof (toupper_digit _ _ U D). subst. tauto.
    - intros D. pose proof (toupper_space _ _ U D). subst. tauto.
    - intros ->. auto. }
  assert (Htail : forall c, head (ex ++ sp2) = c -> ~ is_digit c /\ c <> decimal cfg).
  { intros c <-. destruct Hex as [[-> _]|(c & es & ed & epos & -> & U & _)].
    - cbn [app]. destruct (head_spaces sp2 F2) as [->|H]; cbn [head].
      + split; [unfold is_digit; lia|lia].
      + split; [intros D; apply digit_not_space in D; tauto|]. intros Eh. rewrite Eh in H. tauto.
    - cbn. apply Hc in U. tauto. }
  assert (Hrest : ~ is_digit (head (fr ++ ex ++ sp2))).
  { destruct Hfr as [[-> _]| ->]; cbn; auto. apply (Htail _ eq_refl). }
  assert (Hfirst : ~ is_space (head (s ++ ip ++ fr ++ ex ++ sp2)) /\
     (s = [] -> head (ip ++ fr ++ ex ++ sp2) <> 45 /\ head (ip ++ fr ++ ex ++ sp2) <> 43)).
  { assert (H : ~ is_space (head (ip ++ fr ++ ex ++ sp2)) /\
      head (ip ++ fr ++ ex ++ sp2) <> 45 /\ head (ip ++ fr ++ ex ++ sp2) <> 43).
    { destruct Hip as [|d ip Hd _]; cbn [app head].
      - destruct Hfr as [[-> Efp]| ->]; [|cbn; auto]. subst. cbn in Kpos. lia.
      - split; [apply digit_not_space; auto|]. unfold is_digit in Hd. lia. }
    split; [|tauto]. destruct Hs as [[-> _]|[[-> _]|[-> _]]]; cbn; try tauto; unfold is_space; lia. }
  destruct Hfirst as [Hf1 Hf2].
  rewrite El. rewrite skip_spaces_app by auto.
  set (p := s ++ ip ++ fr ++ ex ++ sp2) in *.
  assert (En : (head p =? 45) = negb positive /\
    (if (head p =? 45) || (head p =? 43) then tl p else p) = ip ++ fr ++ ex ++ sp2).
  { subst p. destruct Hs as [[-> ->]|[[-> ->]|[-> ->]]]; cbn [app head tl]; auto.
    destruct (Hf2 eq_refl) as [G1 G2]. apply Z.eqb_neq in G1. apply Z.eqb_neq in G2.
    rewrite G1, G2. auto. }
  destruct En as [-> ->]. subst p. clear Hf1 Hf2.
  assert (Li : (length ip + length fp <= length l)%nat).
  { rewrite El, !app_length. destruct Hfr as [[-> ->]| ->]; cbn; lia. }
  assert (Ek' : k = (length ip + length fp)%nat) by (rewrite app_length in Ek; auto).
  unfold after_sign. rewrite Ut.
  pose proof (int_part_long ip (fr ++ ex ++ sp2) Hip (not_digit _ Hrest) (f64_of_Z 0) 0 0 ltac:(lia) ltac:(lia) ltac:(unfold INT_MAX; lia)) as E0.
  cbn [Nat.add Nat.sub] in E0. change (Z.of_nat 0) with 0 in E0. rewrite E0. clear E0.
  set (x0 := fold_left push_digit (firstn 17 ip) (f64_of_Z 0)).
  set (e0 := 0 + Z.max 0 (0 + Z.of_nat (length ip) - 17)).
  set (x1 := fold_left push_digit (firstn 17 (ip ++ fp)) (f64_of_Z 0)).
  set (e1 := Z.max 0 (Z.of_nat k - 17) - Z.of_nat (length fp)).
  assert (D : exists nd, 0 < nd /\
    match fr ++ ex ++ sp2 with
        | c :: q =>
            if c =? decimal cfg then
              let '(number, nd, decs, q) := decimal_part x0 (Z.of_nat (Nat.min 17 (length ip))) 0 q in
              (number, nd, e0 - decs, if nd >=? max_digits then skip_digits q else q)
            else (x0, Z.of_nat (Nat.min 17 (length ip)), e0, fr ++ ex ++ sp2)
        | [] => (x0, Z.of_nat (Nat.min 17 (length ip)), e0, fr ++ ex ++ sp2)
        end = (x1, nd, e1, ex ++ sp2)).
  { destruct Hfr as [[-> ->]| ->].
    - cbn [app]. exists (Z.of_nat (Nat.min 17 (length ip))). cbn [length] in *.
      split; [lia|]. unfold x1. rewrite app_nil_r. fold x0.
      assert (e0 = e1) as <- by (unfold e0, e1; lia).
      destruct (ex ++ sp2) as [|c q] eqn:Q; [reflexivity|].
      replace (c =? decimal cfg) with false; auto. symmetry. apply Z.eqb_neq. apply (Htail c eq_refl).
    - cbn [app]. rewrite Z.eqb_refl.
      assert (Nd2 : isdigit_ascii (head (ex ++ sp2)) = false) by (apply not_digit; apply (Htail _ eq_refl)).
      rewrite (decimal_part_long fp (ex ++ sp2) Hfp Nd2 x0 (Nat.min 17 (length ip)) 0 ltac:(lia)).
      exists (Z.of_nat (Nat.min 17 (Nat.min 17 (length ip) + length fp))). split; [lia|].
      assert (X : fold_left push_digit (firstn (17 - Nat.min 17 (length ip)) fp) x0 = x1).
      { unfold x0, x1. rewrite <- fold_left_app. f_equal. rewrite firstn_app. f_equal. f_equal. lia. }
      rewrite X. f_equal; [f_equal; unfold e0, e1; lia|].
      destruct (_ >=? max_digits) eqn:G; rewrite Z.geb_leb in G; unfold max_digits in G.
      + apply skip_digits_all; auto. rewrite <- (firstn_skipn (17 - Nat.min 17 (length ip)) fp) in Hfp.
        apply Forall_app in Hfp. tauto.
      + apply Z.leb_gt in G. rewrite skipn_all2 by lia. auto. }
  destruct D as (nd & Nd1 & ->).
  replace (decimal cfg =? 0) with false by (symmetry; apply Z.eqb_neq; lia). rewrite andb_false_r.
  replace (nd =? 0) with false by (symmetry; apply Z.eqb_neq; lia).
  set (e' := e + Z.max 0 (Z.of_nat k - 17)) in *.
  assert (EX : exponent_part cfg e1 (ex ++ sp2) = Value (e', sp2)).
  { destruct Hex as [[-> Ee]|(c & es & ed & epos & -> & U & Hes & Hed & Ned & Ee)].
    - cbn [app]. replace e' with e1 by (unfold e1, e'; lia). apply exponent_part_none; auto.
    - cbn [app]. rewrite <- app_assoc. rewrite (exponent_part_some cfg _ c es ed sp2 epos); auto.
      + f_equal. f_equal. unfold e1, e'. lia.
      + apply (Hsh (sp1 ++ s ++ ip ++ fr) c es ed sp2 epos); auto.
        rewrite El. cbn [app]. rewrite <- !app_assoc. auto.
      + unfold e1. lia. }
  cbn zeta. rewrite EX.
  assert (Fd : Forall is_digit (ip ++ fp)) by (apply Forall_app; auto).
  assert (Fk : Forall is_digit (firstn 17 (ip ++ fp))) by (apply Forall_forall; intros z Hz; apply (proj1 (Forall_forall _ _) Fd); eapply in_firstn; eauto).
  destruct (pushes_near (firstn 17 (ip ++ fp)) Fk ltac:(rewrite firstn_length; lia)) as (r1 & I1 & N1). fold x1 in I1.
  pose proof (kept_value (ip ++ fp) e positive Fd) as (K1 & K2 & K3). cbv zeta in K1, K2, K3.
  rewrite <- Em, <- Ek in *. fold e' in K1, K2, K3.
  set (N := signed positive (decimal_value (firstn 17 (ip ++ fp)))) in *.
  assert (I2 : exists r2, is (if negb positive then f64_neg x1 else x1) r2 /\ near_rel 4 r2 (IZR N)).
  { unfold N, signed. destruct positive; cbn [negb]; [exists r1; auto|]. exists (- r1)%R. rewrite opp_IZR.
    split; [apply f64_neg_is; auto|apply near_opp; auto]. }
  destruct I2 as (r2 & I2 & N2).
  assert (BN : Z.abs N < 10 ^ 17).
  { pose proof (value_from_bound 0 (firstn 17 (ip ++ fp)) 0 ltac:(cbn; lia) Fk) as B. cbn [Nat.add] in B.
    change (value_from 0 (firstn 17 (ip ++ fp))) with (decimal_value (firstn 17 (ip ++ fp))) in B.
    pose proof (Z.pow_le_mono_r 10 (Z.of_nat (length (firstn 17 (ip ++ fp)))) 17 ltac:(lia) ltac:(rewrite firstn_length; lia)).
    unfold N, signed. destruct positive; lia. }
  assert (HV : N = 0 \/ (bpow radix2 (-999) <= Rabs (IZR N * powerRZ 10 e') <= bpow radix2 999)%R).
  { destruct K3 as [K3|K3]; [auto|]. destruct Hv as [Hv|Hv].
    - left. subst m. rewrite Hv, Rmult_0_l, Rabs_R0 in K2.
      assert (Q : (IZR N * powerRZ 10 e' = 0)%R).
      { destruct (Req_dec (IZR N * powerRZ 10 e') 0); auto. apply Rabs_pos_lt in H. lra. }
      apply Rmult_integral in Q as [Q|Q]; [now apply eq_IZR|]. exfalso. revert Q. apply powerRZ_NOR. lra.
    - right. assert (B2 : (bpow radix2 (-998) = 2 * bpow radix2 (-999))%R) by exact (bpow_double (-999)).
      assert (B1 : (bpow radix2 998 <= bpow radix2 999)%R) by (apply bpow_le; lia). lra. }
  destruct (scale_near _ r2 N e' I2 N2 BN He HV) as (y & r & -> & Iy & Ny).
  exists y. split; [|split].
  - f_equal. f_equal. pose proof (skip_spaces_app sp2 [] F2) as SS. rewrite app_nil_r in SS.
    apply SS. cbn. unfold is_space. lia.
  - apply Iy.
  - destruct Iy as (_ & ->). set (v := (IZR m * powerRZ 10 e)%R) in *. set (v' := (IZR N * powerRZ 10 e')%R) in *.
    replace (r - v)%R with ((r - v') + (v' - v))%R by ring. eapply Rle_trans; [apply Rabs_triang|].
    apply Rplus_le_compat; auto. unfold near_rel in Ny. eapply Rle_trans; [exact Ny|].
    fold u53. pose proof pow8 as P8. pose proof (Rabs_pos v'). pose proof u53_small. pose proof (one_u_ge 8).
    apply Rmult_le_compat; lra.
Qed.

Lemma dropped_small m e k : 10 ^ (Z.of_nat k - 1) <= Z.abs m ->
  (dropped e k <= bpow radix2 (-53) * Rabs (IZR m * powerRZ 10 e))%R.
Proof.
  intros H. unfold dropped. assert (P10 : (0 < powerRZ 10 e)%R) by (apply powerRZ_lt; lra).
  destruct (Z.ltb_spec 17 (Z.of_nat k)) as [L|L].
  2:{ apply Rmult_le_pos; [apply bpow_ge_0|apply Rabs_pos]. }
  rewrite Rabs_mult, (Rabs_pos_eq (powerRZ 10 e)), <- abs_IZR by lra.
  replace (e + Z.of_nat k - 17) with (e + (Z.of_nat k - 17)) by lia. rewrite powerRZ_add by lra.
  rewrite (powerRZ_pos (Z.of_nat k - 17)) by lia. rewrite (Rmult_comm (powerRZ 10 e)), <- Rmult_assoc.
  apply Rmult_le_compat_r; [lra|]. change (-53) with (- (53)). rewrite (bpow_neg 53) by lia.
  apply Rmult_le_reg_l with (IZR (2 ^ 53)); [apply IZR_lt; reflexivity|].
  rewrite <- Rmult_assoc, Rinv_r, Rmult_1_l by (apply not_0_IZR; discriminate). rewrite <- mult_IZR. apply IZR_le.
  replace (Z.of_nat k - 1) with (16 + (Z.of_nat k - 17)) in H by lia. rewrite Z.pow_add_r in H by lia.
  assert (0 < 10 ^ (Z.of_nat k - 17)) by (apply Z.pow_pos_nonneg; lia).
  assert (2 ^ 53 <= 10 ^ 16) by (vm_compute; discriminate). nia.
Qed.
Lemma leading_zeros_case :
  number_text default_numcfg ([48; 46] ++ repeat 48 16 ++ [49]) 1 (-17) 18 /\
  double_field default_numcfg ([48; 46] ++ repeat 48 16 ++ [49]) = Value (f64_of_Z 0) /\
  number_text default_numcfg [48; 101; 51; 48; 57] 0 309 1 /\
  double_field default_numcfg [48; 101; 51; 48; 57] = ParsingError.
Proof.
  split; [|split; [|split]].
  - exists [], [], [48], (46 :: repeat 48 16 ++ [49]), [], [], true.
    split; [reflexivity|]. split; [constructor|]. split; [constructor|]. split; [left; auto|].
    split; [repeat constructor; cbn; lia|]. exists (repeat 48 16 ++ [49]).
    split; [repeat constructor; cbn; lia|]. split; [right; reflexivity|].
    split; [reflexivity|]. split; [cbn; lia|]. split; [reflexivity|]. left. split; reflexivity.
  - unfold double_field. rewrite (value_ext _ 0 []); [reflexivity|vm_compute; reflexivity].
  - exists [], [], [48], [], [101; 51; 48; 57], [], true.
    split; [reflexivity|]. split; [constructor|]. split; [constructor|]. split; [left; auto|].
    split; [repeat constructor; cbn; lia|]. exists [].
    split; [constructor|]. split; [left; auto|]. split; [reflexivity|]. split; [cbn; lia|]. split; [reflexivity|].
    right. exists 101, [], [51; 48; 57], true. split; [reflexivity|]. split; [reflexivity|]. split; [left; auto|].
    split; [repeat constructor; cbn; lia|]. split; [discriminate|reflexivity].
  - vm_compute. reflexivity.
Qed.
Lemma long_number_example :
  let l := [45;49;50;51;52;53;54;55;56;57;48;49;50;51;52;53;54;55;56;57;48;49;46;53] in
  number_text default_numcfg l (-1234567890123456789015) (-1) 22 /\ short_exponents default_numcfg l /\
  10 ^ (22 - 1) <= Z.abs (-1234567890123456789015) /\
  (bpow radix2 (-998) <= Rabs (IZR (-1234567890123456789015) * powerRZ 10 (-1)) <= bpow radix2 998)%R /\
  -1 + Z.max 0 (22 - 17) <= 308 /\
  double_field default_numcfg l = Value (f64_of_Z (-123456789012345678901)).
Proof.
  cbv zeta. split; [|split; [|split; [|split; [|split]]]].
  - exists [], [45], [49;50;51;52;53;54;55;56;57;48;49;50;51;52;53;54;55;56;57;48;49], [46;53], [], [], false.
    split; [reflexivity|]. split; [constructor|]. split; [constructor|]. split; [right; right; auto|].
    split; [repeat constructor; cbn; lia|]. exists [53].
    split; [repeat constructor; cbn; lia|]. split; [right; reflexivity|].
    split; [reflexivity|]. split; [cbn; lia|]. split; [reflexivity|]. left. split; reflexivity.
  - intros a c s ds b positive E U _ _. exfalso.
    assert (I : In c [45;49;50;51;52;53;54;55;56;57;48;49;50;51;52;53;54;55;56;57;48;49;46;53]) by (rewrite E; apply in_elt).
    cbn in U. revert U. cbn in I. repeat (destruct I as [<-|I]; [discriminate|]). destruct I.
  - vm_compute. discriminate.
  - rewrite Rabs_mult, <- abs_IZR. cbn [Z.abs]. rewrite powerRZ_neg' by lia. change (10 ^ - (-1)) with 10.
    rewrite Rabs_pos_eq by lra. split.
    + apply Rle_trans with (bpow radix2 0); [apply bpow_le; lia|]. change (bpow radix2 0) with 1%R. lra.
    + apply Rle_trans with (bpow radix2 100); [|apply bpow_le; lia]. change (bpow radix2 100) with (IZR (2 ^ 100)).
      change (2 ^ 100) with 1267650600228229401496703205376. lra.
  - cbn. lia.
  - unfold double_field. rewrite (value_ext _ (-123456789012345678901) []); [reflexivity|vm_compute; reflexivity].
Qed.
