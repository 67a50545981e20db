(** What numeric text is. *)
From Coq Require Import ZArith List Bool Reals.
From Verif Require Import Base CsvNumModel.
Import ListNotations.
Local Open Scope Z_scope.

Definition is_digit (c : Z) : Prop := 48 <= c <= 57.
Definition is_space (c : Z) : Prop := c = 32 \/ 9 <= c <= 13.
Definition is_sign (s : list Z) (positive : bool) : Prop :=
  (s = [] /\ positive = true) \/ (s = [43] /\ positive = true) \/ (s = [45] /\ positive = false).
(** The number written by the digits of [l] in base ten. *)
Definition decimal_value (l : list Z) : Z := fold_left (fun n d => n * 10 + (d - 48)) l 0.
Definition signed (positive : bool) (n : Z) : Z := if positive then n else - n.

(** An integer in text: blanks, sign, digits with separators [tsep] (0: none) after the first
    character, blanks. *)
Definition is_sep (tsep c : Z) : bool := negb (tsep =? 0) && (c =? tsep).
Definition integer_text (tsep : Z) (l : list Z) (v : Z) : Prop :=
  exists sp1 s d body sp2 positive,
    l = sp1 ++ s ++ (d :: body) ++ sp2 /\
    Forall is_space sp1 /\ Forall is_space sp2 /\ is_sign s positive /\ is_digit d /\
    Forall (fun c => is_digit c \/ is_sep tsep c = true) body /\
    v = signed positive (decimal_value (filter (fun c => negb (is_sep tsep c)) (d :: body))).
Definition chars (l : list Z) : Prop := Forall (fun c => 1 <= c <= 255) l.

(** Every exponent in the text has at most nine digits. *)
Definition short_exponents (cfg : numcfg) (l : list Z) : Prop :=
  forall a c s ds b positive, l = a ++ c :: s ++ ds ++ b ->
    toupper_ascii c = toupper_ascii (sci cfg) -> is_sign s positive -> Forall is_digit ds ->
    (length ds <= 9)%nat.

(** A number in text: blanks, sign, digits, optional decimals, optional exponent, blanks.  [m] is
    the integer made of all digits and the value is [m * 10 ^ e]. *)
Definition number_text (cfg : numcfg) (l : list Z) (m e : Z) (ndigits : nat) : Prop :=
  exists sp1 s ip fr ex sp2 positive,
    l = sp1 ++ s ++ ip ++ fr ++ ex ++ sp2 /\
    Forall is_space sp1 /\ Forall is_space sp2 /\ is_sign s positive /\ Forall is_digit ip /\
    exists fp, Forall is_digit fp /\ ((fr = [] /\ fp = []) \/ fr = decimal cfg :: fp) /\
    ndigits = length (ip ++ fp) /\ (0 < ndigits)%nat /\
    m = signed positive (decimal_value (ip ++ fp)) /\
    ((ex = [] /\ e = - Z.of_nat (length fp)) \/
     exists c es ed epos, ex = c :: es ++ ed /\ toupper_ascii c = toupper_ascii (sci cfg) /\
       is_sign es epos /\ Forall is_digit ed /\ ed <> [] /\
       e = signed epos (decimal_value ed) - Z.of_nat (length fp)).

(** Settings under which the parts of a number cannot be confused. *)
Definition plain_char (c : Z) : Prop := 1 <= c <= 255 /\ ~ is_digit c /\ ~ is_space c /\ c <> 43 /\ c <> 45.
Definition usual (cfg : numcfg) : Prop :=
  plain_char (decimal cfg) /\ plain_char (sci cfg) /\ thousands cfg = 0 /\
  toupper_ascii (decimal cfg) <> toupper_ascii (sci cfg).

(** One unit in the last of the first 17 digits of [m * 10 ^ e], if [m] is written with more ([k] digits). *)
Definition dropped (e : Z) (k : nat) : R := if 17 <? Z.of_nat k then powerRZ 10 (e + Z.of_nat k - 17) else 0%R.
