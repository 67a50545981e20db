(** Theorems about numbers in CSV text (C24, C25, C58, C60). *)
From Coq Require Import ZArith List Bool Reals Lia Lra.
From Flocq Require Import Core IEEE754.BinarySingleNaN.
From Verif Require Import Base F64 CsvNumModel CsvNumSpec CsvNumProofs CsvFloatProofs CsvAccuracyProofs.
Import ListNotations.
Local Open Scope Z_scope.

(** C24.  For every string, separator and integer type [lo .. hi]: a value is returned exactly
    when the text is an integer within the type, the value is that integer, and no operation
    overflows. *)
Theorem integers_read_exactly : forall lo hi tsep l v, lo <= 0 -> 0 <= hi -> chars l ->
  char_to_int lo hi tsep l = Value v <-> integer_text tsep l v /\ lo <= v <= hi.
Proof. intros lo hi tsep l v H1 H2 H3. exact (char_to_int_iff lo hi tsep H1 H2 l v H3). Qed.
Print Assumptions integers_read_exactly.

Theorem integers_never_overflow : forall lo hi tsep l, lo <= 0 -> 0 <= hi ->
  char_to_int lo hi tsep l <> Overflow /\ char_to_int lo hi tsep l <> OutOfRange.
Proof. intros lo hi tsep l H1 H2. exact (char_to_int_no_overflow lo hi tsep H1 H2 l). Qed.
Print Assumptions integers_never_overflow.

(** " -2,147,483,648 " with separator ',' is the least 32 bit integer; one less is refused. *)
Example integer_case :
  chars [32;45;50;44;49;52;55;44;52;56;51;44;54;52;56;32] /\
  char_to_int INT_MIN INT_MAX 44 [32;45;50;44;49;52;55;44;52;56;51;44;54;52;56;32] = Value INT_MIN /\
  char_to_int INT_MIN INT_MAX 44 [32;45;50;44;49;52;55;44;52;56;51;44;54;52;57;32] = ParsingError /\
  char_to_int INT_MIN INT_MAX 0 [50;44;49] = ParsingError /\
  char_to_int (- 2 ^ 63) (2 ^ 63 - 1) 0
    [57;50;50;51;51;55;50;48;51;54;56;53;52;55;55;53;56;48;55] = Value (2 ^ 63 - 1).
Proof. split; [repeat constructor; discriminate|]. vm_compute. repeat split. Qed.

(** C25 is false in both parts.  "12abc" is read as the number 12. *)
Theorem float_text_consumed_refuted :
  exists x, double_field default_numcfg [49; 50; 97; 98; 99] = Value x /\ is x 12%R /\
    ~ exists m e k, number_text default_numcfg [49; 50; 97; 98; 99] m e k.
Proof. exact trailing_text_accepted. Qed.
Print Assumptions float_text_consumed_refuted.

(** The exponent is accumulated in an int: "1e2147483648" overflows it. *)
Theorem float_arithmetic_refuted :
  double_field default_numcfg [49; 101; 50;49;52;55;52;56;51;54;52;56] = Overflow.
Proof. vm_compute. reflexivity. Qed.
Print Assumptions float_arithmetic_refuted.

(** C25, what holds: with exponents of at most nine digits and fields up to 2^30 characters, no
    arithmetic is undefined and the table of powers is read inside its bounds.  Missing: longer
    exponents, and that the text is consumed; both are false. *)
Theorem float_arithmetic_partial : forall cfg l, decimal cfg <> 0 -> sci cfg <> 0 ->
  Z.of_nat (length l) <= 2 ^ 30 -> short_exponents cfg l ->
  double_field cfg l <> Overflow /\ double_field cfg l <> OutOfRange.
Proof. exact double_field_total. Qed.
Print Assumptions float_arithmetic_partial.

(** C58.  A number of at most 15 digits whose decimal exponent is at most 22 in magnitude is
    consumed entirely and read as the double nearest to it. *)
Theorem short_numbers_correctly_rounded : forall cfg l m e k, usual cfg ->
  number_text cfg l m e k -> (k <= 15)%nat -> -22 <= e <= 22 -> short_exponents cfg l ->
  exists x, char_to_double cfg l = Value (x, []) /\ double_field cfg l = Value x /\
            is x (rnd (IZR m * powerRZ 10 e)).
Proof. exact double_field_rounded. Qed.
Print Assumptions short_numbers_correctly_rounded.

(** " -12.5E+3 " *)
Example short_number_case :
  usual default_numcfg /\
  number_text default_numcfg [32;45;49;50;46;53;69;43;51;32] (-125) 2 3 /\
  short_exponents default_numcfg [32;45;49;50;46;53;69;43;51;32] /\
  char_to_double default_numcfg [32;45;49;50;46;53;69;43;51;32] = Value (f64_of_Z (-12500), []).
Proof. exact short_number_example. Qed.

(** C60, what holds.  A number of any length, between 2^-998 and 2^998 in magnitude or zero, whose digits
    scale by at most 10^308, is consumed entirely and read up to nine roundings and the digits after the
    17th, leading zeros counted. *)
Theorem numbers_read_up_to_dropped_digits : forall cfg l m e k, usual cfg -> number_text cfg l m e k ->
  short_exponents cfg l -> Z.of_nat (length l) <= 2 ^ 30 ->
  m = 0 \/ (bpow radix2 (-998) <= Rabs (IZR m * powerRZ 10 e) <= bpow radix2 998)%R ->
  e + Z.max 0 (Z.of_nat k - 17) <= 308 ->
  exists x, char_to_double cfg l = Value (x, []) /\ is_finite x = true /\
    (Rabs (B2R x - IZR m * powerRZ 10 e) <= 9 * bpow radix2 (-53) * Rabs (IZR m * powerRZ 10 e) + dropped e k)%R.
Proof. exact char_to_double_accurate. Qed.
Print Assumptions numbers_read_up_to_dropped_digits.

(** If the first digit is not zero the relative error is at most 10 * 2^-53.  Missing: leading zeros, and a
    zero with a large exponent. *)
Theorem numbers_read_accurately_partial : forall cfg l m e k, usual cfg -> number_text cfg l m e k ->
  short_exponents cfg l -> Z.of_nat (length l) <= 2 ^ 30 -> 10 ^ (Z.of_nat k - 1) <= Z.abs m ->
  (bpow radix2 (-998) <= Rabs (IZR m * powerRZ 10 e) <= bpow radix2 998)%R -> e + Z.max 0 (Z.of_nat k - 17) <= 308 ->
  exists x, double_field cfg l = Value x /\ is_finite x = true /\
    (Rabs (B2R x - IZR m * powerRZ 10 e) <= 10 * bpow radix2 (-53) * Rabs (IZR m * powerRZ 10 e))%R.
Proof.
  intros cfg l m e k U N S L F V E.
  destruct (char_to_double_accurate cfg l m e k U N S L (or_intror V) E) as (x & Ex & Fx & B). exists x.
  split; [unfold double_field; now rewrite Ex|]. split; auto. pose proof (dropped_small m e k F). lra.
Qed.
Print Assumptions numbers_read_accurately_partial.

(** C60 is false: "0.00000000000000001" (1e-17) is read as 0, and "0e309" (zero) is refused. *)
Theorem leading_zeros_refuted :
  number_text default_numcfg ([48; 46] ++ repeat 48 16 ++ [49]) 1 (-17) 18 /\
  double_field default_numcfg ([48; 46] ++ repeat 48 16 ++ [49]) = Value (f64_of_Z 0) /\
  number_text default_numcfg [48; 101; 51; 48; 57] 0 309 1 /\
  double_field default_numcfg [48; 101; 51; 48; 57] = ParsingError.
Proof. exact leading_zeros_case. Qed.
Print Assumptions leading_zeros_refuted.

(** "-123456789012345678901.5", 22 digits *)
Example long_number_case :
  let l := [45;49;50;51;52;53;54;55;56;57;48;49;50;51;52;53;54;55;56;57;48;49;46;53] in
  number_text default_numcfg l (-1234567890123456789015) (-1) 22 /\ short_exponents default_numcfg l /\
  10 ^ (22 - 1) <= Z.abs (-1234567890123456789015) /\
  (bpow radix2 (-998) <= Rabs (IZR (-1234567890123456789015) * powerRZ 10 (-1)) <= bpow radix2 998)%R /\
  -1 + Z.max 0 (22 - 17) <= 308 /\
  double_field default_numcfg l = Value (f64_of_Z (-123456789012345678901)).
Proof. exact long_number_example. Qed.
