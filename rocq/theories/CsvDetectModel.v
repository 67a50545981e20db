(** Model of the detection of column types (source/core/data_management/auto_detect_csv.hpp) and of
    the division of the columns into blocks (data_store.hpp). *)
From Coq Require Import ZArith List Bool Arith String.
From Verif Require Import Base F64 CsvNumModel CsvTokModel.
Import ListNotations.
Local Open Scope Z_scope.
Local Open Scope list_scope.

(** char_to_num.hpp:670-706 (uint8_t); strncasecmp compares upper case characters *)
Definition starts_with_nocase (p : list Z) (word : list Z) : bool :=
  str_eqb (map toupper_ascii (firstn (List.length word) p)) word.
Definition blank_or_end (p : list Z) : bool := match p with [] => true | c :: _ => isspace_ascii c end.
Definition char_to_bool (str : list Z) : option bool :=
  let p := skip_spaces str in
  if starts_with_nocase p (codes "TRUE") then
    if blank_or_end (skipn 4 p) then Some true else None
  else if starts_with_nocase p (codes "FALSE") then
    if blank_or_end (skipn 5 p) then Some false else None
  else None.

(** char_to_num.hpp:710-746 (char** ): one blank is never removed; blanks at the start are removed if
    [skipinitialspace] *)
Fixpoint strip (l : list Z) : list Z :=
  match l with
  | c :: ((_ :: _) as r) => if isspace_ascii c then strip r else l
  | _ => l
  end.
Definition char_to_string (skipinitialspace : bool) (str : list Z) : option (list Z) :=
  let p := if skipinitialspace then strip str else str in
  Some (rev (strip (rev p))).

Section Detect.
(** The floating-point type in use (float or double), with its conversions. *)
Variable F : Type.
Variable of_int : Z -> F.
Variable to_int : list Z -> option Z.
Variable to_fp : list Z -> option F.
(** The option "integers as fp". *)
Variable integers_as_fp : bool.

(** CSVElementType, auto_detect_csv.hpp:45 *)
Inductive element := EInt (z : Z) | EFp (x : F) | EBool (b : bool).
(** CSVColumnsType, line 41; a column of char** points at words of the data *)
Inductive column := ColInt (l : list Z) | ColFp (l : list F) | ColBool (l : list bool) | ColText (l : list (list Z)).

(** get_number, lines 146-173, with the calls of lines 215-231 *)
Definition get_number (str : list Z) : option element :=
  let rest := match to_fp str with
              | Some x => Some (EFp x)
              | None => option_map EBool (char_to_bool str)
              end in
  if integers_as_fp then rest
  else match to_int str with Some z => Some (EInt z) | None => rest end.

Variable data : list (list Z).
Variables nrows ncols : nat.
Variable row_major_order : bool.
(** lines 201-209; [None]: outside the array *)
Definition word (i j : nat) : option (list Z) :=
  nth_error data (if row_major_order then i + ncols * j else j + nrows * i)%nat.

(** convert_col_to_char, lines 48-66 *)
Fixpoint words_upto (i k : nat) : option (list (list Z)) :=
  match word i k with
  | None => None
  | Some w =>
      match k with
      | O => Some [w]
      | S k' => match words_upto i k' with Some l => Some (l ++ [w]) | None => None end
      end
  end.
Definition convert_col_to_char (i j : nat) : option column := option_map ColText (words_upto i j).

(** update_column and its overloads, lines 68-140; reading [int_col[k]] for [k < j] is in bounds if
    the column has [j] elements *)
Definition update_column (e : element) (c : column) (i j : nat) : option column :=
  match e, c with
  | EInt z, ColInt l => Some (ColInt (l ++ [z]))
  | EInt z, ColFp l => Some (ColFp (l ++ [of_int z]))
  | EFp x, ColFp l => Some (ColFp (l ++ [x]))
  | EFp x, ColInt l =>
      if (j <=? List.length l)%nat then Some (ColFp (map of_int (firstn j l) ++ [x])) else None
  | EBool b, ColBool l => Some (ColBool (l ++ [b]))
  | EBool b, _ => if (j =? 0)%nat then Some (ColBool [b]) else convert_col_to_char i j
  | _, _ => convert_col_to_char i j
  end.

(** lines 195-247: element [j] of column [i] *)
Definition detect_element (c : column) (i j : nat) : option column :=
  match word i j with
  | None => None
  | Some w =>
      let c := match c with ColText l => ColText (l ++ [w]) | _ => c end in
      match get_number w with
      | Some e => update_column e c i j
      | None => convert_col_to_char i j
      end
  end.
Fixpoint detect_row (cols : list column) (i j : nat) : option (list column) :=
  match cols with
  | [] => Some []
  | c :: r => match detect_element c i j, detect_row r (S i) j with
              | Some c', Some r' => Some (c' :: r')
              | _, _ => None
              end
  end.
(** lines 176-250; [k] rows from row [j] on *)
Fixpoint detect_rows (k j : nat) (cols : list column) : option (list column) :=
  match k with
  | O => Some cols
  | S k' => match detect_row cols 0 j with Some cols' => detect_rows k' (S j) cols' | None => None end
  end.
Definition detect_columns : option (list column) := detect_rows nrows 0 (repeat (ColInt []) ncols).

(** ** Blocks *)
(** std::variant::index; 1 stands for float and double *)
Definition type_index (c : column) : Z :=
  match c with ColInt _ => 0 | ColFp _ => 1 | ColBool _ => 3 | ColText _ => 4 end.
(** data_store.hpp:1477-1518: the blocks as (start_column, end_column).  [i] runs from 1 to ncols;
    [rest] are the columns from [i] on. *)
Fixpoint block_loop (rest : list column) (i start active : Z) : list (Z * Z) :=
  match rest with
  | [] => [(start, i - 1)]
  | c :: r => if type_index c =? active then block_loop r (i + 1) start active
              else (start, i - 1) :: block_loop r (i + 1) i (type_index c)
  end.
(** [None]: columns[0] does not exist *)
Definition blocks (cols : list column) : option (list (Z * Z)) :=
  match cols with [] => None | c :: r => Some (block_loop r 1 0 (type_index c)) end.
End Detect.
Arguments EInt {F} z. Arguments EFp {F} x. Arguments EBool {F} b.
Arguments ColInt {F} l. Arguments ColFp {F} l. Arguments ColBool {F} l. Arguments ColText {F} l.
Arguments type_index {F} c. Arguments blocks {F} cols.

(** load_from_csv with automatic detection, data_store.hpp:1629-1668, in double precision with
    64-bit da_int: the columns and their blocks; [None]: refused; [Some None]: undefined. *)
Definition value {A : Type} (o : outcome A) : option A := match o with Value a => Some a | _ => None end.
Definition int64_field (num : numcfg) (str : list Z) : option Z :=
  value (char_to_int (- 2 ^ 63) (2 ^ 63 - 1) (thousands num) str).
Definition load_detected (num : numcfg) (as_fp rm : bool) (p : population (list Z))
  : option (option (list (column f64) * list (Z * Z))) :=
  match p with
  | Populated _ a nr nc =>
      Some (match detect_columns f64 f64_of_Z (int64_field num) (fun w => value (double_field num w)) as_fp
                    a (Z.to_nat nr) (Z.to_nat nc) rm with
            | Some cols => match blocks cols with Some b => Some (cols, b) | None => None end
            | None => None
            end)
  | _ => None
  end.
