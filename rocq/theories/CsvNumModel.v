(** Model of the conversion of text to numbers (source/core/csv/char_to_num.hpp).

    A C string is the list of its characters, without the terminating NUL; reading [*p] at its end
    gives 0.  Signed integer arithmetic is checked: a result outside the type is [Overflow]. *)
From Coq Require Import ZArith List Bool.
From Flocq Require Import Core IEEE754.BinarySingleNaN.
From Verif Require Import Base F64.
Import ListNotations.
Local Open Scope Z_scope.

Definition head (l : list Z) : Z := match l with c :: _ => c | [] => 0 end.
(** portable.h:48-51, on characters as values 1 .. 255; bytes from 128 on are negative [char]s in
    C, which these tests treat alike *)
Definition isdigit_ascii (c : Z) : bool := (48 <=? c) && (c <=? 57).
Definition isspace_ascii (c : Z) : bool := (c =? 32) || ((9 <=? c) && (c <=? 13)).
Definition toupper_ascii (c : Z) : Z := if (97 <=? c) && (c <=? 122) then c - 32 else c.

(** [while (isspace_ascii( *p)) ++p;] *)
Fixpoint skip_spaces (l : list Z) : list Z :=
  match l with c :: l' => if isspace_ascii c then skip_spaces l' else l | [] => [] end.

Inductive outcome (A : Type) := Value (a : A) | ParsingError | Overflow | OutOfRange.
Arguments Value {A} a. Arguments ParsingError {A}. Arguments Overflow {A}. Arguments OutOfRange {A}.

(** char_to_num.hpp:434-463 (isneg) and 465-496: the digit loop.  [tsep] = 0 means no separator
    (the two loops of the code are one here: without separator the first test never holds). *)
Fixpoint digits (lo hi : Z) (isneg : bool) (tsep : Z) (number : Z) (l : list Z)
  : outcome (Z * list Z) :=
  match l with
  | [] => Value (number, [])
  | d :: l' =>
      if negb (tsep =? 0) && (d =? tsep) then digits lo hi isneg tsep number l'
      else if negb (isdigit_ascii d) then Value (number, l)
      else
        let room := if isneg
                    then (number >? Z.quot lo 10)
                         || ((number =? Z.quot lo 10) && (d - 48 <=? - Z.rem lo 10))
                    else (number <? Z.quot hi 10)
                         || ((number =? Z.quot hi 10) && (d - 48 <=? Z.rem hi 10)) in
        if room then
          let number' := if isneg then number * 10 - (d - 48) else number * 10 + (d - 48) in
          if (lo <=? number * 10) && (number * 10 <=? hi) && (lo <=? number') && (number' <=? hi)
          then digits lo hi isneg tsep number' l'
          else Overflow
        else ParsingError
  end.

(** char_to_num.hpp:396-523 (int64_t) and 525-653 (int32_t): the same code for the limits
    [lo, hi] of the type *)
Definition char_to_int (lo hi tsep : Z) (str : list Z) : outcome Z :=
  let p := skip_spaces str in
  let '(isneg, p) := match p with
                     | 45 :: p' => (true, p')
                     | 43 :: p' => (false, p')
                     | _ => (false, p)
                     end in
  if negb (isdigit_ascii (head p)) then ParsingError
  else match digits lo hi isneg tsep 0 p with
       | Value (number, p) => if head (skip_spaces p) =? 0 then Value number else ParsingError
       | ParsingError => ParsingError
       | Overflow => Overflow
       | OutOfRange => OutOfRange
       end.

(** ** Double precision, char_to_num.hpp:64-240 *)
(** The table of powers of ten, lines 85-117, correctly rounded by the compiler; [None] outside *)
Definition table (k : Z) : option f64 :=
  if (0 <=? k) && (k <=? 308) then Some (f64_of_Z (10 ^ k)) else None.
Definition max_digits : Z := 17.
Definition INT_MIN : Z := - 2 ^ 31.
Definition INT_MAX : Z := 2 ^ 31 - 1.
Definition in_int (x : Z) : bool := (INT_MIN <=? x) && (x <=? INT_MAX).

(** [*number = *number * 10. + ( *p - '0')] *)
Definition push_digit (number : f64) (d : Z) : f64 :=
  f64_add (f64_mul number (f64_of_Z 10)) (f64_of_Z (d - 48)).

(** lines 139-151; returns number, num_digits, exponent and the rest *)
Fixpoint int_part (tsep : Z) (number : f64) (num_digits exponent : Z) (l : list Z)
  : outcome (f64 * Z * Z * list Z) :=
  match l with
  | [] => Value (number, num_digits, exponent, [])
  | d :: l' =>
      if isdigit_ascii d then
        let go (n : f64) (nd e : Z) :=
          match l' with
          | c :: r => if negb (tsep =? 0) && (c =? tsep) then int_part tsep n nd e r
                      else int_part tsep n nd e l'
          | [] => Value (n, nd, e, [])
          end in
        if num_digits <? max_digits then go (push_digit number d) (num_digits + 1) exponent
        else if in_int (exponent + 1) then go number num_digits (exponent + 1) else Overflow
      else Value (number, num_digits, exponent, l)
  end.
(** lines 159-164; returns number, num_digits, num_decimals and the rest *)
Fixpoint decimal_part (number : f64) (num_digits num_decimals : Z) (l : list Z)
  : f64 * Z * Z * list Z :=
  match l with
  | d :: l' => if (num_digits <? max_digits) && isdigit_ascii d
               then decimal_part (push_digit number d) (num_digits + 1) (num_decimals + 1) l'
               else (number, num_digits, num_decimals, l)
  | [] => (number, num_digits, num_decimals, [])
  end.
(** lines 167-168 *)
Fixpoint skip_digits (l : list Z) : list Z :=
  match l with d :: l' => if isdigit_ascii d then skip_digits l' else l | [] => [] end.
(** lines 202-206: the digits of the exponent, in [int] *)
Fixpoint exponent_digits (num_digits n : Z) (l : list Z) : outcome (Z * Z * list Z) :=
  match l with
  | d :: l' =>
      if (num_digits <? max_digits) && isdigit_ascii d then
        if in_int (n * 10) && in_int (n * 10 + (d - 48))
        then exponent_digits (num_digits + 1) (n * 10 + (d - 48)) l'
        else Overflow
      else Value (num_digits, n, l)
  | [] => Value (num_digits, n, [])
  end.

(** lines 218-235; [None] in the second component: HUGE_VAL is reported as an error *)
Definition scale (number : f64) (exponent : Z) : outcome f64 :=
  if exponent >? 308 then ParsingError
  else
    let with_entry (k : Z) (f : f64 -> outcome f64) :=
      match table k with Some e => f e | None => OutOfRange end in
    let finish (x : f64) := match x with B754_infinity _ => ParsingError | _ => Value x end in
    if exponent >? 0 then with_entry exponent (fun e => finish (f64_mul number e))
    else if exponent <? -308 then
           if exponent <? -616 then finish (f64_of_Z 0)
           else with_entry (-308 - exponent) (fun e1 =>
                  with_entry 308 (fun e2 => finish (f64_div (f64_div number e1) e2)))
         else with_entry (- exponent) (fun e => finish (f64_div number e)).

(** The parser settings used: decimal point, exponent character, thousands separator (0: none);
    skip_trailing is always 1 (tokenizer.c:110). *)
Record numcfg := mkNumcfg { decimal : Z; sci : Z; thousands : Z }.
Definition f64_neg (x : f64) : f64 := Bopp x.

(** lines 181-213: the exponent string, when there is one; returns the exponent and the rest.
    [*++p] reads after the exponent character; un-consuming goes back one character. *)
Definition exponent_part (cfg : numcfg) (exponent : Z) (p : list Z) : outcome (Z * list Z) :=
  match p with
  | c :: q =>
      if toupper_ascii c =? toupper_ascii (sci cfg) then
        let '(negative, signed, q') := match q with
                               | 45 :: r => (true, true, r)
                               | 43 :: r => (false, true, r)
                               | _ => (false, false, q)
                               end in
        match exponent_digits 0 0 q' with
        | Value (nd, n, r) =>
            let e := if negative : bool then exponent - n else exponent + n in
            if in_int e
            then Value (e, if nd =? 0 then (if signed : bool then q else p) else r)
            else Overflow
        | Overflow => Overflow
        | ParsingError => ParsingError
        | OutOfRange => OutOfRange
        end
      else Value (exponent, p)
  | [] => if 0 =? toupper_ascii (sci cfg) then OutOfRange else Value (exponent, p)
  end.

(** char_to_num.hpp:64-240: the number and where the conversion stopped.  A NUL decimal point or
    exponent character makes the code step over the end of the string: [OutOfRange]. *)
Definition char_to_double (cfg : numcfg) (str : list Z) : outcome (f64 * list Z) :=
  let p := skip_spaces str in
  let '(negative, p) := match p with
                        | 45 :: p' => (true, p')
                        | 43 :: p' => (false, p')
                        | _ => (false, p)
                        end in
  match int_part (thousands cfg) (f64_of_Z 0) 0 0 p with
  | Value (number, nd, e, p) =>
      let '(number, nd, e, p) :=
        match p with
        | c :: q =>
            if c =? decimal cfg then
              let '(number, nd, decs, q) := decimal_part number nd 0 q in
              (number, nd, e - decs, if nd >=? max_digits then skip_digits q else q)
            else (number, nd, e, p)
        | [] => (number, nd, e, p)
        end in
      if (head p =? 0) && (decimal cfg =? 0) then OutOfRange
      else if nd =? 0 then ParsingError
      else
        let number := if negative : bool then f64_neg number else number in
        match exponent_part cfg e p with
        | Value (e, p) =>
            match scale number e with
            | Value x => Value (x, skip_spaces p)
            | ParsingError => ParsingError
            | Overflow => Overflow
            | OutOfRange => OutOfRange
            end
        | ParsingError => ParsingError
        | Overflow => Overflow
        | OutOfRange => OutOfRange
        end
  | ParsingError => ParsingError
  | Overflow => Overflow
  | OutOfRange => OutOfRange
  end.

(** read_csv.hpp:222-224: a field read as double; the end pointer is not examined. *)
Definition double_field (cfg : numcfg) (str : list Z) : outcome f64 :=
  match char_to_double cfg str with
  | Value (x, _) => Value x
  | ParsingError => ParsingError
  | Overflow => Overflow
  | OutOfRange => OutOfRange
  end.
(** The default settings (csv_reader.cpp:32-87): '.', 'e', no separator. *)
Definition default_numcfg : numcfg := mkNumcfg 46 101 0.
