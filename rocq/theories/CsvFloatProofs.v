(** Proofs about the conversion of text to double precision numbers. *)
From Coq Require Import ZArith List Bool Lia Reals Lra.
From Flocq Require Import Core BinarySingleNaN.
From Verif Require Import Base F64 CsvNumModel CsvNumSpec CsvNumProofs.
Import ListNotations.
Local Open Scope Z_scope.

Definition after_sign (cfg : numcfg) (negative : bool) (p : list Z) : outcome (f64 * list Z) :=
  match int_part (thousands cfg) (f64_of_Z 0) 0 0 p with
  | Value (number, nd, e, p) =>
      let '(number, nd, e, p) :=
        match p with
        | c :: q =>
            if c =? decimal cfg then
              let '(number, nd, decs, q) := decimal_part number nd 0 q in
              (number, nd, e - decs, if nd >=? max_digits then skip_digits q else q)
            else (number, nd, e, p)
        | [] => (number, nd, e, p)
        end in
      if (head p =? 0) && (decimal cfg =? 0) then OutOfRange
      else if nd =? 0 then ParsingError
      else
        let number := if negative : bool then f64_neg number else number in
        match exponent_part cfg e p with
        | Value (e, p) =>
            match scale number e with
            | Value x => Value (x, skip_spaces p)
            | ParsingError => ParsingError
            | Overflow => Overflow
            | OutOfRange => OutOfRange
            end
        | ParsingError => ParsingError
        | Overflow => Overflow
        | OutOfRange => OutOfRange
        end
  | ParsingError => ParsingError
  | Overflow => Overflow
  | OutOfRange => OutOfRange
  end.
Lemma char_to_double_eq cfg l : char_to_double cfg l =
  let p := skip_spaces l in
  after_sign cfg (head p =? 45) (if (head p =? 45) || (head p =? 43) then tl p else p).
Proof.
  unfold char_to_double. cbn zeta. rewrite sign_case.
  destruct (head _ =? 45); [reflexivity|]. destruct (head _ =? 43); reflexivity.
Qed.

(** ** Defined arithmetic *)
Lemma int_part_total tsep x nd e l : 0 <= nd <= 17 -> 0 <= e -> e + Z.of_nat (length l) <= INT_MAX ->
  exists x' nd' e' a r, int_part tsep x nd e l = Value (x', nd', e', r) /\ l = a ++ r /\
    0 <= nd' <= 17 /\ 0 <= e' <= e + Z.of_nat (length l).
Proof.
  remember (length l) as n eqn:En. assert (Hn : (length l <= n)%nat) by lia.
  clear En. revert x nd e l Hn. induction n as [|n IH]; intros x nd e l Hn Hnd He Hm.
  - destruct l; [|cbn in Hn; lia]. cbn. exists x, nd, e, [], []. repeat split; auto; lia.
  - destruct l as [|d l]; [cbn; exists x, nd, e, [], []; repeat split; auto; lia|].
    cbn [int_part]. destruct (isdigit_ascii d).
    2:{ exists x, nd, e, [], (d :: l). repeat split; auto; lia. }
    cbn [length] in Hn.
    assert (G : forall x1 nd1 e1, 0 <= nd1 <= 17 -> 0 <= e1 -> e1 <= e + 1 ->
      exists x' nd' e' a r,
        match l with
        | [] => Value (x1, nd1, e1, [])
        | c :: r => if negb (tsep =? 0) && (c =? tsep) then int_part tsep x1 nd1 e1 r
                    else int_part tsep x1 nd1 e1 l
        end = Value (x', nd', e', r) /\ d :: l = a ++ r /\
        0 <= nd' <= 17 /\ 0 <= e' <= e + Z.of_nat (S n)).
    { intros x1 nd1 e1 H1 H2 H3. destruct l as [|c r].
      - exists x1, nd1, e1, [d], []. repeat split; auto; lia.
      - destruct (_ && _).
        + destruct (IH x1 nd1 e1 r ltac:(cbn in Hn; lia) H1 H2 ltac:(lia))
            as (x' & nd' & e' & a & q & E & -> & B1 & B2).
          exists x', nd', e', (d :: c :: a), q. repeat split; auto; lia.
        + destruct (IH x1 nd1 e1 (c :: r) ltac:(lia) H1 H2 ltac:(lia))
            as (x' & nd' & e' & a & q & E & E2 & B1 & B2).
          exists x', nd', e', (d :: a), q. cbn [app]. rewrite <- E2. repeat split; auto; lia. }
    destruct (nd <? max_digits) eqn:D.
    + apply G; try lia. unfold max_digits in D. apply Z.ltb_lt in D. lia.
    + replace (in_int (e + 1)) with true; [apply G; lia|].
      symmetry. unfold in_int. rewrite andb_true_iff, !Z.leb_le. unfold INT_MIN. lia.
Qed.

Lemma decimal_part_total x nd decs l : 0 <= nd <= 17 ->
  exists x' nd' decs' a r, decimal_part x nd decs l = (x', nd', decs', r) /\ l = a ++ r /\
    nd <= nd' <= 17 /\ decs' - decs = nd' - nd.
Proof.
  revert x nd decs. induction l as [|d l IH]; intros x nd decs H; cbn [decimal_part].
  - exists x, nd, decs, [], []. repeat split; auto; lia.
  - destruct (nd <? max_digits) eqn:D; cbn [andb].
    2:{ exists x, nd, decs, [], (d :: l). repeat split; auto; lia. }
    destruct (isdigit_ascii d).
    2:{ exists x, nd, decs, [], (d :: l). repeat split; auto; lia. }
    unfold max_digits in D. apply Z.ltb_lt in D.
    destruct (IH (push_digit x d) (nd + 1) (decs + 1) ltac:(lia))
      as (x' & nd' & decs' & a & r & E & -> & B1 & B2).
    exists x', nd', decs', (d :: a), r. repeat split; auto; lia.
Qed.
Lemma skip_digits_total l : exists a, l = a ++ skip_digits l.
Proof.
  induction l as [|d l [a E]]; cbn [skip_digits]; [exists []; auto|].
  destruct (isdigit_ascii d); [|exists []; auto]. exists (d :: a). cbn. congruence.
Qed.

Lemma exponent_digits_total k n l : (k <= 9)%nat -> 0 <= n < 10 ^ Z.of_nat k ->
  (forall ds r, l = ds ++ r -> Forall is_digit ds -> (length ds + k <= 9)%nat) ->
  exists nd' n' r, exponent_digits (Z.of_nat k) n l = Value (nd', n', r) /\ 0 <= n' < 10 ^ 9.
Proof.
  revert k n. induction l as [|d l IH]; intros k n Hk Hn H; cbn [exponent_digits].
  - exists (Z.of_nat k), n, []. split; auto.
    pose proof (Z.pow_le_mono_r 10 (Z.of_nat k) 9 ltac:(lia) ltac:(lia)). lia.
  - replace (Z.of_nat k <? max_digits) with true by (symmetry; apply Z.ltb_lt; unfold max_digits; lia).
    cbn [andb]. destruct (isdigit_ascii d) eqn:D.
    2:{ exists (Z.of_nat k), n, (d :: l). split; auto.
        pose proof (Z.pow_le_mono_r 10 (Z.of_nat k) 9 ltac:(lia) ltac:(lia)). lia. }
    apply isdigit_iff in D. pose proof D as D'. unfold is_digit in D'.
    pose proof (H [d] l eq_refl ltac:(auto)) as HS. cbn in HS.
    assert (B : n * 10 + (d - 48) < 10 ^ Z.of_nat (S k)).
    { rewrite Nat2Z.inj_succ, Z.pow_succ_r by lia. lia. }
    pose proof (Z.pow_le_mono_r 10 (Z.of_nat (S k)) 9 ltac:(lia) ltac:(lia)) as P.
    replace (in_int (n * 10)) with true.
    2:{ symmetry. unfold in_int. rewrite andb_true_iff, !Z.leb_le. unfold INT_MIN, INT_MAX. lia. }
    replace (in_int (n * 10 + (d - 48))) with true.
    2:{ symmetry. unfold in_int. rewrite andb_true_iff, !Z.leb_le. unfold INT_MIN, INT_MAX. lia. }
    cbn [andb].
    replace (Z.of_nat k + 1) with (Z.of_nat (S k)) by lia. apply IH; [lia|lia|].
    intros ds r E F. specialize (H (d :: ds) r ltac:(cbn; congruence) ltac:(constructor; auto)). cbn in H. lia.
Qed.

Lemma scale_total x e : scale x e <> Overflow /\ scale x e <> OutOfRange.
Proof.
  unfold scale. destruct (e >? 308) eqn:E1; [split; discriminate|].
  rewrite Z.gtb_ltb in E1. apply Z.ltb_ge in E1.
  assert (F : forall y : f64, let o := match y with B754_infinity _ => ParsingError | _ => Value y end in
              o <> Overflow /\ o <> OutOfRange).
  { intros []; split; discriminate. }
  assert (T : forall k, 0 <= k <= 308 -> table k = Some (f64_of_Z (10 ^ k))).
  { intros k Hk. unfold table. replace ((0 <=? k) && (k <=? 308)) with true; auto.
    symmetry. rewrite andb_true_iff, !Z.leb_le. lia. }
  destruct (e >? 0) eqn:E2.
  { rewrite Z.gtb_ltb in E2. apply Z.ltb_lt in E2. rewrite T by lia. apply F. }
  rewrite Z.gtb_ltb in E2. apply Z.ltb_ge in E2.
  destruct (e <? -308) eqn:E3.
  - destruct (e <? -616) eqn:E4; [apply F|]. apply Z.ltb_lt in E3. apply Z.ltb_ge in E4.
    rewrite T by lia. rewrite T by lia. apply F.
  - apply Z.ltb_ge in E3. rewrite T by lia. apply F.
Qed.

Lemma exponent_part_total cfg e p : sci cfg <> 0 -> -17 <= e <= 2 ^ 30 -> short_exponents cfg p ->
  exists e' r, exponent_part cfg e p = Value (e', r).
Proof.
  intros Hs He H. unfold exponent_part. destruct p as [|c q].
  - destruct (0 =? toupper_ascii (sci cfg)) eqn:Z0; [|eauto].
    apply Z.eqb_eq in Z0. unfold toupper_ascii in Z0. destruct (_ && _) eqn:B; [|lia].
    apply andb_true_iff in B as [B _]. apply Z.leb_le in B. lia.
  - destruct (_ =? _) eqn:U; [|eauto]. apply Z.eqb_eq in U.
    rewrite sign_case.
    assert (G : forall q', (exists s positive, q = s ++ q' /\ is_sign s positive) ->
      exists nd n r, exponent_digits 0 0 q' = Value (nd, n, r) /\ 0 <= n < 10 ^ 9).
    { intros q' (s & positive & -> & Hsg). change 0 with (Z.of_nat 0) at 1.
      apply exponent_digits_total; [lia|cbn; lia|]. intros ds r -> F.
      specialize (H [] c s ds r positive eq_refl U Hsg F). lia. }
    assert (R : forall n, 0 <= n < 10 ^ 9 -> in_int (e - n) = true /\ in_int (e + n) = true).
    { intros n Hn. unfold in_int. rewrite !andb_true_iff, !Z.leb_le. unfold INT_MIN, INT_MAX. lia. }
    destruct q as [|c1 q1].
    + cbn [head tl Z.eqb]. destruct (G []) as (nd & n & r & -> & Hn).
      { exists [], true. split; auto. left; auto. }
      destruct (R n Hn) as [_ ->]. eauto.
    + cbn [head tl]. destruct (c1 =? 45) eqn:C1; [|destruct (c1 =? 43) eqn:C2].
      * apply Z.eqb_eq in C1. subst. destruct (G q1) as (nd & n & r & -> & Hn).
        { exists [45], false. split; auto. right; right; auto. }
        destruct (R n Hn) as [-> _]. eauto.
      * apply Z.eqb_eq in C2. subst. destruct (G q1) as (nd & n & r & -> & Hn).
        { exists [43], true. split; auto. right; left; auto. }
        destruct (R n Hn) as [_ ->]. eauto.
      * destruct (G (c1 :: q1)) as (nd & n & r & -> & Hn).
        { exists [], true. split; auto. left; auto. }
        destruct (R n Hn) as [_ ->]. eauto.
Qed.

Lemma short_suffix cfg a p : short_exponents cfg (a ++ p) -> short_exponents cfg p.
Proof.
  intros H a' c s ds b positive -> U S F. apply (H (a ++ a') c s ds b positive); auto.
  rewrite <- app_assoc. auto.
Qed.

Lemma char_to_double_total cfg l : decimal cfg <> 0 -> sci cfg <> 0 ->
  Z.of_nat (length l) <= 2 ^ 30 -> short_exponents cfg l ->
  char_to_double cfg l <> Overflow /\ char_to_double cfg l <> OutOfRange.
Proof.
  intros Hd Hs Hl H. rewrite char_to_double_eq. cbn zeta.
  destruct (skip_spaces_split l) as (sp & El & _ & _). set (p := skip_spaces l) in *.
  assert (G : forall negative q, (exists a, p = a ++ q) ->
    after_sign cfg negative q <> Overflow /\ after_sign cfg negative q <> OutOfRange).
  { intros negative q (a & Eq).
    assert (Lq : Z.of_nat (length q) <= 2 ^ 30).
    { rewrite El, Eq, !app_length in Hl. lia. }
    assert (Sq : short_exponents cfg q).
    { rewrite El, Eq in H. apply short_suffix in H. apply short_suffix in H. auto. }
    clear El. unfold after_sign. destruct (int_part_total (thousands cfg) (f64_of_Z 0) 0 0 q ltac:(lia) ltac:(lia))
      as (x & nd & e & a1 & r & -> & -> & B1 & B2); [unfold INT_MAX; lia|].
    cbn zeta. apply short_suffix in Sq. rewrite app_length in Lq.
    assert (K : exists x1 nd1 e1 p1,
      match r with
        | c :: q =>
            if c =? decimal cfg then
              let '(number, nd, decs, q) := decimal_part x nd 0 q in
              (number, nd, e - decs, if nd >=? max_digits then skip_digits q else q)
            else (x, nd, e, r)
        | [] => (x, nd, e, r)
        end = (x1, nd1, e1, p1) /\ short_exponents cfg p1 /\ -17 <= e1 <= 2 ^ 30).
    { rewrite app_length in B2. destruct r as [|c q2]; [exists x, nd, e, []; repeat split; auto; lia|].
      destruct (c =? decimal cfg); [|exists x, nd, e, (c :: q2); repeat split; auto; lia].
      destruct (decimal_part_total x nd 0 q2 B1) as (x1 & nd1 & decs & a2 & r2 & -> & -> & B3 & B4).
      exists x1, nd1, (e - decs), (if nd1 >=? max_digits then skip_digits r2 else r2).
      split; [auto|]. split; [|lia]. change (c :: a2 ++ r2) with ((c :: a2) ++ r2) in Sq.
      apply short_suffix in Sq. destruct (_ >=? _); auto.
      destruct (skip_digits_total r2) as (a3 & E3). rewrite E3 in Sq. apply short_suffix in Sq. auto. }
    destruct K as (x1 & nd1 & e1 & p1 & -> & S1 & B3).
    replace (decimal cfg =? 0) with false by (symmetry; apply Z.eqb_neq; auto). rewrite andb_false_r.
    destruct (nd1 =? 0); [split; discriminate|].
    destruct (exponent_part_total cfg e1 p1 Hs B3 S1) as (e2 & p2 & ->).
    pose proof (scale_total (if negative then f64_neg x1 else x1) e2) as [Q1 Q2].
    destruct (scale _ _); split; congruence. }
  apply G. destruct (head p =? 45); [|destruct (head p =? 43)]; cbn [orb].
  - destruct p; [exists []|exists [z]]; auto.
  - destruct p; [exists []|exists [z]]; auto.
  - exists []; auto.
Qed.

(** ** Correct rounding *)
Lemma value_from_app m a b : value_from m (a ++ b) = value_from (value_from m a) b.
Proof. apply fold_left_app. Qed.
Lemma value_from_bound m l k : 0 <= m < 10 ^ Z.of_nat k -> Forall is_digit l ->
  0 <= value_from m l < 10 ^ Z.of_nat (k + length l).
Proof.
  intros Hm F. revert m k Hm. induction F as [|d l Hd _ IH]; intros m k Hm; cbn [length value_from fold_left].
  - rewrite Nat.add_0_r. auto.
  - unfold is_digit in Hd. specialize (IH (m * 10 + (d - 48)) (S k)).
    replace (k + S (length l))%nat with (S k + length l)%nat by lia. apply IH.
    rewrite Nat2Z.inj_succ, Z.pow_succ_r by lia. lia.
Qed.
Lemma pow15 k : (k <= 15)%nat -> 10 ^ Z.of_nat k <= 10 ^ 15.
Proof. intros. apply Z.pow_le_mono_r; lia. Qed.

Lemma IZR_small z : Z.abs z <= 2 ^ 60 -> (Rabs (IZR z) <= bpow radix2 1000)%R.
Proof.
  intros H. rewrite <- abs_IZR. apply Rle_trans with (IZR (2 ^ 60)); [apply IZR_le; auto|].
  change (IZR (2 ^ 60)) with (bpow radix2 60). apply bpow_le. lia.
Qed.

Lemma push_digit_is x m d : is x (IZR m) -> 0 <= m -> m * 10 + 9 <= 2 ^ 53 -> is_digit d ->
  is (push_digit x d) (IZR (m * 10 + (d - 48))).
Proof.
  intros Hx H0 H Hd. unfold is_digit in Hd. unfold push_digit.
  assert (M : is (f64_mul x (f64_of_Z 10)) (IZR (m * 10))).
  { rewrite <- (rnd_Z (m * 10)) by lia. rewrite mult_IZR. apply f64_mul_is; auto.
    - apply f64_of_Z_is. lia.
    - rewrite <- mult_IZR. apply IZR_small. lia. }
  rewrite <- (rnd_Z (m * 10 + (d - 48))) by lia. rewrite plus_IZR. apply f64_add_is; auto.
  - apply f64_of_Z_is. lia.
  - rewrite <- plus_IZR. apply IZR_small. lia.
Qed.

Lemma int_part_ok ip rest x m k e : Forall is_digit ip -> isdigit_ascii (head rest) = false ->
  (k + length ip <= 15)%nat -> 0 <= m < 10 ^ Z.of_nat k -> is x (IZR m) ->
  exists x', int_part 0 x (Z.of_nat k) e (ip ++ rest)
             = Value (x', Z.of_nat (k + length ip), e, rest) /\ is x' (IZR (value_from m ip)).
Proof.
  intros F Hr. revert x m k. induction F as [|d ip Hd F IH]; intros x m k Hk Hm Hx.
  - exists x. split; auto. cbn [app length]. rewrite Nat.add_0_r.
    destruct rest as [|c r]; [reflexivity|]. cbn [head] in Hr. cbn [int_part]. rewrite Hr. auto.
  - cbn [app int_part]. apply isdigit_iff in Hd as Hd'. rewrite Hd'. cbn [length] in Hk.
    replace (Z.of_nat k <? max_digits) with true by (symmetry; apply Z.ltb_lt; unfold max_digits; lia).
    pose proof (pow15 (S k) ltac:(lia)) as P.
    assert (Pk : 10 ^ Z.of_nat (S k) = 10 * 10 ^ Z.of_nat k) by (rewrite Nat2Z.inj_succ, Z.pow_succ_r; lia).
    pose proof Hd as D. unfold is_digit in D.
    destruct (IH (push_digit x d) (m * 10 + (d - 48)) (S k) ltac:(lia) ltac:(lia)) as (x' & E & I).
    { apply push_digit_is; auto; lia. }
    exists x'. split; [|exact I]. replace (k + length (d :: ip))%nat with (S k + length ip)%nat by (cbn; lia).
    rewrite <- E. replace (Z.of_nat (S k)) with (Z.of_nat k + 1) by lia.
    destruct (ip ++ rest) as [|c r]; reflexivity.
Qed.
Lemma decimal_part_ok fp rest x m k decs : Forall is_digit fp -> isdigit_ascii (head rest) = false ->
  (k + length fp <= 15)%nat -> 0 <= m < 10 ^ Z.of_nat k -> is x (IZR m) ->
  exists x', decimal_part x (Z.of_nat k) decs (fp ++ rest)
             = (x', Z.of_nat (k + length fp), decs + Z.of_nat (length fp), rest) /\ is x' (IZR (value_from m fp)).
Proof.
  intros F Hr. revert x m k decs. induction F as [|d ip Hd F IH]; intros x m k decs Hk Hm Hx.
  - exists x. split; auto. cbn [app length]. rewrite Nat.add_0_r, Z.add_0_r.
    destruct rest as [|c r]; [reflexivity|]. cbn [head] in Hr. cbn [decimal_part].
    rewrite Hr, andb_false_r. auto.
  - cbn [app decimal_part]. apply isdigit_iff in Hd as Hd'. rewrite Hd'. cbn [length] in Hk.
    replace (Z.of_nat k <? max_digits) with true by (symmetry; apply Z.ltb_lt; unfold max_digits; lia).
    pose proof (pow15 (S k) ltac:(lia)) as P.
    assert (Pk : 10 ^ Z.of_nat (S k) = 10 * 10 ^ Z.of_nat k) by (rewrite Nat2Z.inj_succ, Z.pow_succ_r; lia).
    pose proof Hd as D. unfold is_digit in D.
    destruct (IH (push_digit x d) (m * 10 + (d - 48)) (S k) (decs + 1) ltac:(lia) ltac:(lia)) as (x' & E & I).
    { apply push_digit_is; auto; lia. }
    exists x'. split; [|exact I]. replace (k + length (d :: ip))%nat with (S k + length ip)%nat by (cbn; lia).
    cbn [andb]. replace (Z.of_nat k + 1) with (Z.of_nat (S k)) by lia. rewrite E.
    f_equal. f_equal. cbn [length]. lia.
Qed.

Lemma exponent_digits_ok ed rest k n : Forall is_digit ed -> isdigit_ascii (head rest) = false ->
  (k + length ed <= 9)%nat -> 0 <= n < 10 ^ Z.of_nat k ->
  exponent_digits (Z.of_nat k) n (ed ++ rest) = Value (Z.of_nat (k + length ed), value_from n ed, rest).
Proof.
  intros F Hr. revert n k. induction F as [|d ed Hd F IH]; intros n k Hk Hn.
  - cbn [app length]. rewrite Nat.add_0_r. destruct rest as [|c r]; [reflexivity|].
    cbn [head] in Hr. cbn [exponent_digits]. rewrite Hr, andb_false_r. auto.
  - cbn [app exponent_digits]. apply isdigit_iff in Hd as Hd'. rewrite Hd'. cbn [length] in Hk.
    replace (Z.of_nat k <? max_digits) with true by (symmetry; apply Z.ltb_lt; unfold max_digits; lia).
    pose proof (Z.pow_le_mono_r 10 (Z.of_nat (S k)) 9 ltac:(lia) ltac:(lia)) as P.
    assert (Pk : 10 ^ Z.of_nat (S k) = 10 * 10 ^ Z.of_nat k) by (rewrite Nat2Z.inj_succ, Z.pow_succ_r; lia).
    unfold is_digit in Hd. cbn [andb].
    replace (in_int (n * 10)) with true.
    2:{ symmetry. unfold in_int. rewrite andb_true_iff, !Z.leb_le. unfold INT_MIN, INT_MAX. lia. }
    replace (in_int (n * 10 + (d - 48))) with true.
    2:{ symmetry. unfold in_int. rewrite andb_true_iff, !Z.leb_le. unfold INT_MIN, INT_MAX. lia. }
    cbn [andb]. replace (Z.of_nat k + 1) with (Z.of_nat (S k)) by lia. rewrite IH by lia.
    replace (k + length (d :: ed))%nat with (S k + length ed)%nat by (cbn; lia). reflexivity.
Qed.

Lemma f64_pow10 k : 0 <= k <= 22 -> is (f64_of_Z (10 ^ k)) (IZR (10 ^ k)).
Proof.
  intros H. set (z := 10 ^ k).
  assert (Hz : 0 <= z <= 10 ^ 22).
  { subst z. split; [apply Z.pow_nonneg; lia|apply Z.pow_le_mono_r; lia]. }
  assert (G : generic_format radix2 fexp64 (IZR z)).
  { apply generic_format_FLT. apply (FLT_spec radix2 _ 53 _ (Float radix2 (5 ^ k) k)); cbn [Fnum Fexp].
    - unfold F2R. cbn [Fnum Fexp]. rewrite <- IZR_Zpower by lia. rewrite <- mult_IZR. f_equal.
      subst z. change (Zpower radix2 k) with (2 ^ k). rewrite <- Z.pow_mul_l. auto.
    - change (Zpower radix2 53) with (2 ^ 53). rewrite Z.abs_eq by (apply Z.pow_nonneg; lia).
      pose proof (Z.pow_le_mono_r 5 k 22 ltac:(lia) ltac:(lia)).
      assert (5 ^ 22 < 2 ^ 53) by reflexivity. lia.
    - cbn. lia. }
  pose proof (binary_normalize_correct 53 1024 _ _ mode_NE z 0 false) as E.
  cbn zeta in E. fold (f64_of_Z z) in E.
  assert (F : F2R (Float radix2 z 0) = IZR z) by (unfold F2R; cbn; lra). rewrite F in E.
  change (round radix2 _ (round_mode mode_NE) (IZR z)) with (rnd (IZR z)) in E.
  assert (R : rnd (IZR z) = IZR z) by (unfold rnd; apply round_generic; auto with typeclass_instances).
  rewrite R in E. rewrite Rlt_bool_true in E; [split; apply E|].
  rewrite <- abs_IZR. apply Rle_lt_trans with (IZR (2 ^ 80)).
  - apply IZR_le. rewrite Z.abs_eq by lia. assert (10 ^ 22 < 2 ^ 80) by reflexivity. lia.
  - change (IZR (2 ^ 80)) with (bpow radix2 80). apply bpow_lt. lia.
Qed.

Lemma is_value x r : is x r -> match x with B754_infinity _ => @ParsingError f64 | _ => Value x end = Value x.
Proof. intros [F _]. destruct x; auto. discriminate. Qed.

Lemma scale_ok x m e : is x (IZR m) -> Z.abs m <= 2 ^ 53 -> -22 <= e <= 22 ->
  exists y, scale x e = Value y /\ is y (rnd (IZR m * powerRZ 10 e)).
Proof.
  intros Hx Hm He. unfold scale.
  assert (T : forall k, 0 <= k <= 308 -> table k = Some (f64_of_Z (10 ^ k))).
  { intros k Hk. unfold table. replace ((0 <=? k) && (k <=? 308)) with true; auto.
    symmetry. rewrite andb_true_iff, !Z.leb_le. lia. }
  replace (e >? 308) with false by (rewrite Z.gtb_ltb; symmetry; apply Z.ltb_ge; lia).
  rewrite Z.gtb_ltb. destruct (0 <? e) eqn:E0.
  - apply Z.ltb_lt in E0. rewrite T by lia. exists (f64_mul x (f64_of_Z (10 ^ e))).
    assert (I : is (f64_mul x (f64_of_Z (10 ^ e))) (rnd (IZR m * powerRZ 10 e))).
    { replace (powerRZ 10 e) with (IZR (10 ^ e)).
      - apply f64_mul_is; auto; [apply f64_pow10; lia|].
        rewrite <- mult_IZR, <- abs_IZR. apply Rle_trans with (IZR (2 ^ 200)).
        + apply IZR_le. rewrite Z.abs_mul. rewrite (Z.abs_eq (10 ^ e)) by (apply Z.pow_nonneg; lia).
          pose proof (Z.pow_le_mono_r 10 e 22 ltac:(lia) ltac:(lia)).
          assert (2 ^ 53 * 10 ^ 22 <= 2 ^ 200) by (vm_compute; discriminate). nia.
        + change (IZR (2 ^ 200)) with (bpow radix2 200). apply bpow_le. lia.
      - destruct e; try lia. unfold powerRZ. rewrite pow_IZR. f_equal.
        rewrite positive_nat_Z. auto. }
    split; auto. apply (is_value _ _ I).
  - apply Z.ltb_ge in E0.
    replace (e <? -308) with false by (symmetry; apply Z.ltb_ge; lia).
    rewrite T by lia. exists (f64_div x (f64_of_Z (10 ^ - e))).
    assert (P : (0 < 10 ^ - e)) by (apply Z.pow_pos_nonneg; lia).
    assert (I : is (f64_div x (f64_of_Z (10 ^ - e))) (rnd (IZR m * powerRZ 10 e))).
    { replace (powerRZ 10 e) with (/ IZR (10 ^ - e))%R.
      - apply f64_div_is; auto; [apply f64_pow10; lia| |].
        + apply IZR_lt in P. lra.
        + unfold Rdiv. rewrite Rabs_mult.
          assert (Q : (Rabs (/ IZR (10 ^ - e)) <= 1)%R).
          { rewrite Rabs_inv. rewrite <- abs_IZR. rewrite Z.abs_eq by lia.
            apply IZR_lt in P as P'. assert (1 <= IZR (10 ^ - e))%R by (apply IZR_le; lia).
            rewrite <- Rinv_1. apply Rinv_le_contravar; lra. }
          pose proof (IZR_small m ltac:(lia)) as S. pose proof (Rabs_pos (IZR m)).
          pose proof (Rabs_pos (/ IZR (10 ^ - e))).
          apply Rle_trans with (Rabs (IZR m) * 1)%R; [apply Rmult_le_compat_l; auto|lra].
      - destruct e as [|e|e]; try lia; [cbn; lra|]. cbn [powerRZ Z.opp]. rewrite pow_IZR. f_equal.
        f_equal. rewrite positive_nat_Z. auto. }
    split; auto. apply (is_value _ _ I).
Qed.

Lemma f64_neg_is x r : is x r -> is (f64_neg x) (- r)%R.
Proof. intros [F <-]. split; unfold f64_neg; [rewrite is_finite_Bopp; auto|apply B2R_Bopp]. Qed.

Lemma toupper_digit c d : toupper_ascii c = toupper_ascii d -> is_digit c -> c = d.
Proof.
  unfold toupper_ascii, is_digit. intros H D.
  replace ((97 <=? c) && (c <=? 122)) with false in H.
  2:{ symmetry. rewrite andb_false_iff, !Z.leb_gt. lia. }
  destruct (_ && _) eqn:E; [|auto]. apply andb_true_iff in E as [E1 E2].
  apply Z.leb_le in E1. apply Z.leb_le in E2. lia.
Qed.
Lemma toupper_space c d : toupper_ascii c = toupper_ascii d -> is_space c -> c = d.
Proof.
  unfold toupper_ascii, is_space. intros H D.
  replace ((97 <=? c) && (c <=? 122)) with false in H.
  2:{ symmetry. rewrite andb_false_iff, !Z.leb_gt. lia. }
  destruct (_ && _) eqn:E; [|auto]. apply andb_true_iff in E as [E1 E2].
  apply Z.leb_le in E1. apply Z.leb_le in E2. lia.
Qed.
Lemma head_spaces sp : Forall is_space sp -> sp = [] \/ is_space (head sp).
Proof. destruct 1; auto. Qed.
Lemma not_digit c : ~ is_digit c -> isdigit_ascii c = false.
Proof. intros H. destruct (isdigit_ascii c) eqn:E; auto. apply isdigit_iff in E. tauto. Qed.

Lemma exponent_part_none cfg e sp : plain_char (sci cfg) -> Forall is_space sp ->
  exponent_part cfg e sp = Value (e, sp).
Proof.
  intros (R & _ & S & _) F. unfold exponent_part. destruct F as [|c sp Hc F].
  - destruct (0 =? _) eqn:Z0; auto. apply Z.eqb_eq in Z0. exfalso. unfold toupper_ascii in Z0.
    destruct (_ && _) eqn:B; [|lia]. apply andb_true_iff in B as [B _]. apply Z.leb_le in B. lia.
  - destruct (_ =? _) eqn:U; auto. apply Z.eqb_eq in U. apply toupper_space in U; auto. subst. tauto.
Qed.
Lemma exponent_part_some cfg e c es ed sp epos : toupper_ascii c = toupper_ascii (sci cfg) ->
  is_sign es epos -> Forall is_digit ed -> ed <> [] -> (length ed <= 9)%nat -> Forall is_space sp ->
  -17 <= e <= 2 ^ 30 ->
  exponent_part cfg e (c :: es ++ ed ++ sp) = Value (signed epos (decimal_value ed) + e, sp).
Proof.
  intros U S F N L G He. unfold exponent_part. apply Z.eqb_eq in U. rewrite U. rewrite sign_case.
  assert (X : exponent_digits 0 0 (ed ++ sp) = Value (Z.of_nat (length ed), decimal_value ed, sp)).
  { apply (exponent_digits_ok ed sp 0 0); auto; [|cbn; lia]. apply not_digit.
    destruct (head_spaces sp G) as [->|H]; [cbn; unfold is_digit; lia|].
    intros D. apply digit_not_space in D. tauto. }
  pose proof (value_from_bound 0 ed 0 ltac:(cbn; lia) F) as B. cbn [Nat.add] in B.
  change (value_from 0 ed) with (decimal_value ed) in B.
  pose proof (Z.pow_le_mono_r 10 (Z.of_nat (length ed)) 9 ltac:(lia) ltac:(lia)) as P.
  assert (R : in_int (e - decimal_value ed) = true /\ in_int (e + decimal_value ed) = true).
  { unfold in_int. rewrite !andb_true_iff, !Z.leb_le. unfold INT_MIN, INT_MAX. lia. }
  assert (NZ : (Z.of_nat (length ed) =? 0) = false).
  { apply Z.eqb_neq. destruct ed; [congruence|cbn; lia]. }
  destruct R as [R1 R2].
  destruct S as [[-> ->]|[[-> ->]|[-> ->]]]; cbn [app head tl signed].
  - assert (H : is_digit (head (ed ++ sp))) by (destruct F; [congruence|auto]).
    unfold is_digit in H.
    replace (head (ed ++ sp) =? 45) with false by (symmetry; apply Z.eqb_neq; lia).
    replace (head (ed ++ sp) =? 43) with false by (symmetry; apply Z.eqb_neq; lia).
    rewrite X, R2, NZ. f_equal. f_equal. lia.
  - change (43 =? 45) with false. change (43 =? 43) with true. cbn iota beta.
    rewrite X, R2, NZ. f_equal. f_equal. lia.
  - change (45 =? 45) with true. cbn iota beta.
    rewrite X, R1, NZ. f_equal. f_equal. lia.
Qed.

Lemma char_to_double_rounded cfg l m e k : usual cfg -> number_text cfg l m e k -> (k <= 15)%nat ->
  -22 <= e <= 22 -> short_exponents cfg l ->
  exists x, char_to_double cfg l = Value (x, []) /\ is x (rnd (IZR m * powerRZ 10 e)).
Proof.
  intros (Ud & Us & Ut & Une) (sp1 & s & ip & fr & ex & sp2 & positive & El & F1 & F2 & Hs & Hip
    & fp & Hfp & Hfr & Ek & Kpos & Em & Hex) Hk He Hsh.
  rewrite char_to_double_eq. cbn zeta.
  pose proof Ud as (Rd & Nd & Sd & Pd & Md). pose proof Us as (Rs & Ns & Ss & Ps & Ms).
  (* the characters that may follow *)
  assert (Hc : forall c, toupper_ascii c = toupper_ascii (sci cfg) ->
             ~ is_digit c /\ ~ is_space c /\ c <> decimal cfg).
  { intros c U. split; [|split].
    - intros D. pose proof (toupper_digit _ _ U D). subst. tauto.
    - intros D. pose proof (toupper_space _ _ U D). subst. tauto.
    - intros ->. auto. }
  assert (Htail : forall c, head (ex ++ sp2) = c -> ~ is_digit c /\ c <> decimal cfg).
  { intros c <-. destruct Hex as [[-> _]|(c & es & ed & epos & -> & U & _)].
    - cbn [app]. destruct (head_spaces sp2 F2) as [->|H]; cbn [head].
      + split; [unfold is_digit; lia|lia].
      + split; [intros D; apply digit_not_space in D; tauto|]. intros Eh. rewrite Eh in H. tauto.
    - cbn. apply Hc in U. tauto. }
  assert (Hrest : ~ is_digit (head (fr ++ ex ++ sp2))).
  { destruct Hfr as [[-> _]| ->]; cbn; auto. apply (Htail _ eq_refl). }
  assert (Hfirst : ~ is_space (head (s ++ ip ++ fr ++ ex ++ sp2)) /\
     (s = [] -> head (ip ++ fr ++ ex ++ sp2) <> 45 /\ head (ip ++ fr ++ ex ++ sp2) <> 43)).
  { assert (H : ~ is_space (head (ip ++ fr ++ ex ++ sp2)) /\
      head (ip ++ fr ++ ex ++ sp2) <> 45 /\ head (ip ++ fr ++ ex ++ sp2) <> 43).
    { destruct Hip as [|d ip Hd _]; cbn [app head].
      - destruct Hfr as [[-> Efp]| ->]; [|cbn; auto]. subst. cbn in Kpos. lia.
      - split; [apply digit_not_space; auto|]. unfold is_digit in Hd. lia. }
    split; [|tauto]. destruct Hs as [[-> _]|[[-> _]|[-> _]]]; cbn; try tauto; unfold is_space; lia. }
  destruct Hfirst as [Hf1 Hf2].
  rewrite El. rewrite skip_spaces_app by auto.
  set (p := s ++ ip ++ fr ++ ex ++ sp2) in *.
  assert (En : (head p =? 45) = negb positive /\
    (if (head p =? 45) || (head p =? 43) then tl p else p) = ip ++ fr ++ ex ++ sp2).
  { subst p. destruct Hs as [[-> ->]|[[-> ->]|[-> ->]]]; cbn [app head tl]; auto.
    destruct (Hf2 eq_refl) as [G1 G2]. apply Z.eqb_neq in G1. apply Z.eqb_neq in G2.
    rewrite G1, G2. auto. }
  destruct En as [-> ->]. subst p. clear Hf1 Hf2.
  rewrite app_length in Ek.
  unfold after_sign. rewrite Ut.
  destruct (int_part_ok ip (fr ++ ex ++ sp2) (f64_of_Z 0) 0 0 0 Hip (not_digit _ Hrest) ltac:(lia)
              ltac:(cbn; lia) (f64_of_Z_is 0 ltac:(lia))) as (x0 & E0 & I0).
  cbn [Nat.add Z.of_nat] in E0. rewrite E0. clear E0.
  pose proof (value_from_bound 0 ip 0 ltac:(cbn; lia) Hip) as B0. cbn [Nat.add] in B0.
  (* decimals *)
  assert (D : exists x1,
    match fr ++ ex ++ sp2 with
        | c :: q =>
            if c =? decimal cfg then
              let '(number, nd, decs, q) := decimal_part x0 (Z.of_nat (length ip)) 0 q in
              (number, nd, 0 - decs, if nd >=? max_digits then skip_digits q else q)
            else (x0, Z.of_nat (length ip), 0, fr ++ ex ++ sp2)
        | [] => (x0, Z.of_nat (length ip), 0, fr ++ ex ++ sp2)
        end = (x1, Z.of_nat k, - Z.of_nat (length fp), ex ++ sp2) /\
     is x1 (IZR (decimal_value (ip ++ fp)))).
  { destruct Hfr as [[-> ->]| ->].
    - cbn [app]. exists x0. rewrite app_nil_r. split; [|auto]. cbn [length] in Ek.
      rewrite Nat.add_0_r in Ek. subst k.
      destruct (ex ++ sp2) as [|c q] eqn:Q; [reflexivity|]. cbn [length Z.of_nat Z.opp].
      replace (c =? decimal cfg) with false; auto. symmetry. apply Z.eqb_neq. apply (Htail c eq_refl).
    - cbn [app]. rewrite Z.eqb_refl.
      destruct (decimal_part_ok fp (ex ++ sp2) x0 (value_from 0 ip) (length ip) 0 Hfp) as (x1 & -> & I1); auto.
      { apply not_digit. apply (Htail _ eq_refl). }
      { lia. }
      exists x1. subst k.
      replace (_ >=? max_digits) with false
        by (symmetry; rewrite Z.geb_leb; apply Z.leb_gt; unfold max_digits; lia).
      split; [f_equal; f_equal; lia|]. unfold decimal_value.
      change (fold_left _ (ip ++ fp) 0) with (value_from 0 (ip ++ fp)). rewrite value_from_app. auto. }
  destruct D as (x1 & -> & I1).
  replace (decimal cfg =? 0) with false by (symmetry; apply Z.eqb_neq; lia). rewrite andb_false_r.
  replace (Z.of_nat k =? 0) with false by (symmetry; apply Z.eqb_neq; lia).
  assert (EX : exponent_part cfg (- Z.of_nat (length fp)) (ex ++ sp2) = Value (e, sp2)).
  { destruct Hex as [[-> ->]|(c & es & ed & epos & -> & U & Hes & Hed & Ned & ->)].
    - cbn [app]. apply exponent_part_none; auto.
    - cbn [app]. rewrite <- app_assoc. rewrite (exponent_part_some cfg _ c es ed sp2 epos); auto.
      + apply (Hsh (sp1 ++ s ++ ip ++ fr) c es ed sp2 epos); auto.
        rewrite El. cbn [app]. rewrite <- !app_assoc. auto.
      + lia. }
  cbn zeta. rewrite EX.
  assert (I2 : is (if negb positive then f64_neg x1 else x1) (IZR m)).
  { subst m. unfold signed. destruct positive; cbn [negb]; auto. rewrite opp_IZR. apply f64_neg_is; auto. }
  assert (Bm : Z.abs m <= 2 ^ 53).
  { pose proof (value_from_bound 0 (ip ++ fp) 0 ltac:(cbn; lia) ltac:(apply Forall_app; auto)) as B.
    cbn [Nat.add] in B. change (value_from 0 (ip ++ fp)) with (decimal_value (ip ++ fp)) in B.
    pose proof (pow15 (length (ip ++ fp)) ltac:(rewrite app_length; lia)) as P.
    subst m. unfold signed. destruct positive; lia. }
  destruct (scale_ok _ _ _ I2 Bm He) as (y & -> & Iy).
  exists y. split; auto. f_equal. f_equal.
  pose proof (skip_spaces_app sp2 [] F2) as SS. rewrite app_nil_r in SS.
  apply SS. cbn. unfold is_space. lia.
Qed.

Lemma double_field_total cfg l : decimal cfg <> 0 -> sci cfg <> 0 ->
  Z.of_nat (length l) <= 2 ^ 30 -> short_exponents cfg l ->
  double_field cfg l <> Overflow /\ double_field cfg l <> OutOfRange.
Proof.
  intros H1 H2 H3 H4. destruct (char_to_double_total cfg l H1 H2 H3 H4) as [A B].
  unfold double_field. destruct (char_to_double cfg l) as [[x r]| | |]; split; congruence.
Qed.
Lemma double_field_rounded cfg l m e k : usual cfg -> number_text cfg l m e k -> (k <= 15)%nat ->
  -22 <= e <= 22 -> short_exponents cfg l ->
  exists x, char_to_double cfg l = Value (x, []) /\ double_field cfg l = Value x /\
            is x (rnd (IZR m * powerRZ 10 e)).
Proof.
  intros H1 H2 H3 H4 H5. destruct (char_to_double_rounded cfg l m e k H1 H2 H3 H4 H5) as (x & E & I).
  exists x. unfold double_field. rewrite E. auto.
Qed.

(** A number contains only digits, signs, blanks, the point and the exponent character. *)
Lemma number_text_chars cfg l m e k : number_text cfg l m e k ->
  Forall (fun c => is_digit c \/ is_space c \/ c = 43 \/ c = 45 \/ c = decimal cfg \/
                   toupper_ascii c = toupper_ascii (sci cfg)) l.
Proof.
  intros (sp1 & s & ip & fr & ex & sp2 & positive & -> & F1 & F2 & Hs & Hip & fp & Hfp & Hfr & _ & _ & _ & Hex).
  assert (D : forall l, Forall is_digit l -> Forall (fun c => is_digit c \/ is_space c \/ c = 43 \/ c = 45
    \/ c = decimal cfg \/ toupper_ascii c = toupper_ascii (sci cfg)) l)
    by (intros l; apply Forall_impl; tauto).
  assert (S : forall l, Forall is_space l -> Forall (fun c => is_digit c \/ is_space c \/ c = 43 \/ c = 45
    \/ c = decimal cfg \/ toupper_ascii c = toupper_ascii (sci cfg)) l)
    by (intros l; apply Forall_impl; tauto).
  assert (G : forall s p, is_sign s p -> Forall (fun c => is_digit c \/ is_space c \/ c = 43 \/ c = 45
    \/ c = decimal cfg \/ toupper_ascii c = toupper_ascii (sci cfg)) s).
  { intros s' p [[-> _]|[[-> _]|[-> _]]]; repeat constructor; tauto. }
  repeat (apply Forall_app; split); eauto.
  - destruct Hfr as [[-> _]| ->]; auto. constructor; auto; tauto.
  - destruct Hex as [[-> _]|(c & es & ed & epos & -> & U & H1 & H2 & _)]; auto.
    constructor; [tauto|]. apply Forall_app; eauto.
Qed.

(** Doubles compared by their contents. *)
Lemma value_ext {A : Type} (o : outcome (f64 * A)) z a :
  match o with Value (x, a) => Some (B2SF x, a) | _ => None end = Some (B2SF (f64_of_Z z), a) ->
  o = Value (f64_of_Z z, a).
Proof.
  destruct o as [[x b]| | |]; try discriminate. intros E. injection E as E1 E2. subst.
  f_equal. f_equal. apply B2SF_inj. auto.
Qed.

Lemma trailing_text_accepted :
  exists x, double_field default_numcfg [49; 50; 97; 98; 99] = Value x /\ is x 12%R /\
    ~ exists m e k, number_text default_numcfg [49; 50; 97; 98; 99] m e k.
Proof.
  exists (f64_of_Z 12). split.
  { unfold double_field. rewrite (value_ext _ 12 [97; 98; 99]); [reflexivity|vm_compute; reflexivity]. }
  split.
  - apply f64_of_Z_is. lia.
  - intros (m & e & k & H). apply number_text_chars in H.
    inversion_clear H as [|? ? _ H1]. inversion_clear H1 as [|? ? _ H2].
    inversion_clear H2 as [|? ? H3 _]. unfold is_digit, is_space in H3. cbn in H3. lia.
Qed.

Lemma short_number_example :
  usual default_numcfg /\
  number_text default_numcfg [32;45;49;50;46;53;69;43;51;32] (-125) 2 3 /\
  short_exponents default_numcfg [32;45;49;50;46;53;69;43;51;32] /\
  char_to_double default_numcfg [32;45;49;50;46;53;69;43;51;32] = Value (f64_of_Z (-12500), []).
Proof.
  split; [|split; [|split]].
  - repeat split; cbn; unfold is_digit, is_space; try lia; discriminate.
  - exists [32], [45], [49;50], [46;53], [69;43;51], [32], false.
    split; [reflexivity|]. split; [repeat constructor|]. split; [repeat constructor|].
    split; [right; right; auto|]. split; [repeat constructor; cbn; lia|].
    exists [53]. split; [repeat constructor; cbn; lia|]. split; [right; reflexivity|].
    split; [reflexivity|]. split; [cbn; lia|]. split; [reflexivity|].
    right. exists 69, [43], [51], true. split; [reflexivity|]. split; [reflexivity|].
    split; [right; left; auto|]. split; [repeat constructor; cbn; lia|]. split; [discriminate|reflexivity].
  - intros a c s ds b positive E _ _ _. apply (f_equal (@length Z)) in E.
    rewrite app_length in E. cbn [length] in E. rewrite !app_length in E. lia.
  - apply value_ext. vm_compute. reflexivity.
Qed.
