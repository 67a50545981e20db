(** What the type of a column is. *)
From Coq Require Import ZArith List Bool.
From Verif Require Import Base CsvNumModel CsvTokModel CsvTokSpec CsvDetectModel.
Import ListNotations.
Local Open Scope Z_scope.

(** What a field is, on its own. *)
Inductive kind := Integer | Floating | Boolean | Word.
Section Column.
Variable F : Type.
Variable of_int : Z -> F.
Variable to_int : text -> option Z.
Variable to_fp : text -> option F.
Variable as_fp : bool.

Definition kind_of (w : text) : kind :=
  match (if as_fp then None else to_int w), to_fp w, char_to_bool w with
  | Some _, _, _ => Integer
  | None, Some _, _ => Floating
  | None, None, Some _ => Boolean
  | None, None, None => Word
  end.
(** The type of a column, from the kinds of its fields. *)
Definition all_kinds (ok : kind -> bool) (ws : list text) : bool := forallb (fun w => ok (kind_of w)) ws.
Definition is_int k := match k with Integer => true | _ => false end.
Definition is_num k := match k with Integer | Floating => true | _ => false end.
Definition is_bool k := match k with Boolean => true | _ => false end.
Definition column_kind (ws : list text) : kind :=
  if all_kinds is_int ws then Integer
  else if all_kinds is_num ws then Floating
  else if all_kinds is_bool ws then Boolean
  else Word.
(** A field as an entry of a column of each type. *)
Definition as_int (w : text) : Z := match to_int w with Some z => z | None => 0 end.
Definition as_float (dflt : F) (w : text) : F :=
  match kind_of w with
  | Integer => of_int (as_int w)
  | _ => match to_fp w with Some x => x | None => dflt end
  end.
Definition as_bool (w : text) : bool := match char_to_bool w with Some b => b | None => false end.
Definition column_of (dflt : F) (ws : list text) : column F :=
  match column_kind ws with
  | Integer => ColInt (map as_int ws)
  | Floating => ColFp (map (as_float dflt) ws)
  | Boolean => ColBool (map as_bool ws)
  | Word => ColText ws
  end.
Definition column_length (c : column F) : nat :=
  match c with ColInt l => length l | ColFp l => length l | ColBool l => length l | ColText l => length l end.
End Column.
Definition kind_of_column {F : Type} (c : column F) : kind :=
  match c with ColInt _ => Integer | ColFp _ => Floating | ColBool _ => Boolean | ColText _ => Word end.

(** Field [i] of every row. *)
Definition nth_column (i : nat) (rs : list (list text)) : list text := map (fun r => nth i r []) rs.
(** [a] holds the fields of [rs]. *)
Definition stores (rm : bool) (rs : list (list text)) (nr nc : nat) (a : list text) : Prop :=
  length a = (nr * nc)%nat /\ length rs = nr /\ rectangular nc rs /\
  forall i j r w, nth_error rs i = Some r -> nth_error r j = Some w -> nth_error a (cell rm nr nc i j) = Some w.

(** Consecutive ranges covering [from .. to-1], each over columns of one type. *)
Fixpoint covers {F : Type} (cols : list (column F)) (from : Z) (bs : list (Z * Z)) (upto : Z) : Prop :=
  match bs with
  | [] => from = upto
  | (s, e) :: bs' =>
      s = from /\ s <= e < upto /\
      (exists k, forall i c, s <= i <= e -> nth_error cols (Z.to_nat i) = Some c -> kind_of_column c = k) /\
      covers cols (e + 1) bs' upto
  end.

(** ** Text fields *)
Definition space (c : Z) : Prop := c = 32 \/ 9 <= c <= 13.
(** A text that is not changed when it is stored. *)
Definition stored_as_is (skipinitialspace : bool) (w : text) : Prop :=
  ~ In 0 w /\ (forall a c, w = a ++ [c] -> a <> [] -> ~ space c) /\
  (skipinitialspace = true -> forall c b, w = c :: b -> b <> [] -> ~ space c).

(** The types of the columns and the blocks, without the values. *)
Definition types_of {F : Type} (o : option (option (list (column F) * list (Z * Z)))) :=
  match o with
  | Some (Some (cols, bs)) => Some (Some (map kind_of_column cols, bs))
  | Some None => Some None
  | None => None
  end.
(** Reading a file into a data store with the default options. *)
Definition load_default (chunks : list text) :=
  match read_csv text (char_to_string false) [] [] false true false 0 default_cfg 100 chunks with
  | Some p => load_detected default_numcfg false true p
  | None => None
  end.
