(** What CSV text means: rows of fields. *)
From Coq Require Import ZArith List Bool.
From Verif Require Import Base CsvTokModel.
Import ListNotations.
Local Open Scope Z_scope.

Notation text := (list Z).

(** ** The reader with unbounded memory, one character at a time *)
Record doc := mkDoc { rows : list (list text); row : list text; field : text; nline : Z }.
Definition iexec1 (e : event) (s : doc) : doc :=
  match e with
  | Push c => mkDoc (rows s) (row s) (field s ++ [c]) (nline s)
  | EndField => mkDoc (rows s) (row s ++ [field s]) [] (nline s)
  | EndLine => mkDoc (rows s ++ [row s]) [] (field s) (nline s + 1)
  | EndSkippedLine | FileLine => mkDoc (rows s) (row s) (field s) (nline s + 1)
  end.
Definition iexec (evs : list event) (s : doc) : doc := fold_left (fun s e => iexec1 e s) evs s.
Definition istep (cfg : tokcfg) (x : tstate * doc) (c : Z) : tstate * doc :=
  let '(evs, st', mv) := react cfg (skip_this_line cfg (nline (snd x))) (fst x) c in
  let s' := iexec evs (snd x) in
  match mv with
  | Stay => let '(evs2, st2, _) := react cfg (skip_this_line cfg (nline s')) st' c in
            (st2, iexec evs2 s')
  | _ => (st', s')
  end.
Definition ieof (x : tstate * doc) : option (list (list text)) :=
  match fst x with
  | START_RECORD | WHITESPACE_LINE | EAT_CRNL_NOP | EAT_LINE_COMMENT
  | START_FIELD_IN_SKIP_LINE | IN_FIELD_IN_SKIP_LINE | IN_QUOTED_FIELD_IN_SKIP_LINE
  | QUOTE_IN_QUOTED_FIELD_IN_SKIP_LINE => Some (rows (snd x))
  | ESCAPE_IN_QUOTED_FIELD | IN_QUOTED_FIELD | ESCAPED_CHAR => None
  | IN_FIELD | START_FIELD | QUOTE_IN_QUOTED_FIELD => Some (rows (iexec [EndField; EndLine] (snd x)))
  | _ => Some (rows (iexec [EndLine] (snd x)))
  end.
Definition ideal (cfg : tokcfg) (l : text) : option (list (list text)) :=
  ieof (fold_left (istep cfg) l (START_RECORD, mkDoc [] [] [] 0)).

(** Rows shorter than the one before are extended with empty fields. *)
Fixpoint pad_rows (prev : nat) (rs : list (list text)) : list (list text) :=
  match rs with
  | [] => []
  | r :: rs' => let r' := r ++ repeat [] (prev - length r) in r' :: pad_rows (length r') rs'
  end.
(** No row is shorter than the one before. *)
Fixpoint nondecreasing (prev : nat) (rs : list (list text)) : Prop :=
  match rs with [] => True | r :: rs' => (prev <= length r)%nat /\ nondecreasing (length r) rs' end.

(** The table held by the parser. *)
Definition table (d : data) : list (list text) :=
  map (fun l => firstn (Z.to_nat (snd l)) (skipn (Z.to_nat (fst l)) (words d))) (lines d).

(** The settings never make the reader go back in the chunk. *)
Definition no_back (cfg : tokcfg) : Prop :=
  skip_empty_lines cfg = false \/ delim_whitespace cfg = true.
(** No chunk starts with a byte order mark, except possibly the first ([with_bom true]). *)
Definition bom : text := [239; 187; 191].
Definition unmarked (chunks : list text) : Prop := forall c r, In c chunks -> c <> bom ++ r.
Definition with_bom (b : bool) (chunks : list text) : list text :=
  match chunks with c :: r => (if b then bom ++ c else c) :: r | [] => [] end.
(** Steps enough for every chunk. *)
Definition enough (fuel : nat) (chunks : list text) : Prop :=
  forall c, In c chunks -> (2 * length c <= fuel)%nat.

(** ** Writing a table *)
(** Settings under which the special characters are told apart. *)
Definition special_chars (cfg : tokcfg) : list Z :=
  delimiter cfg :: quotechar cfg ::
  (if escapechar cfg =? 0 then [] else [escapechar cfg]) ++
  (if commentchar cfg =? 0 then [] else [commentchar cfg]) ++
  (if lineterminator cfg =? 0 then [10; 13] else [lineterminator cfg]).
Definition writable (cfg : tokcfg) : Prop :=
  NoDup (special_chars cfg) /\ delim_whitespace cfg = false /\ skip_empty_lines cfg = false /\
  skip_first cfg < 0 /\ skip_rows cfg = [] /\
  (skipinitialspace cfg = true -> ~ In 32 (special_chars cfg)).

(** A field between quotes; quotes inside are doubled or escaped. *)
Inductive quoted_text (cfg : tokcfg) : text -> text -> Prop :=
| quoted_nil : quoted_text cfg [] []
| quoted_char : forall c f t, c <> quotechar cfg -> (escapechar cfg <> 0 -> c <> escapechar cfg) ->
    quoted_text cfg f t -> quoted_text cfg (c :: f) (c :: t)
| quoted_double : forall f t, doublequote cfg = true -> quoted_text cfg f t ->
    quoted_text cfg (quotechar cfg :: f) (quotechar cfg :: quotechar cfg :: t)
| quoted_escape : forall c f t, escapechar cfg <> 0 -> quoted_text cfg f t ->
    quoted_text cfg (c :: f) (escapechar cfg :: c :: t).
(** A field as text: between quotes, or as it is when it has no special character (nor a leading
    blank that would be skipped). *)
Inductive field_text (cfg : tokcfg) : text -> text -> Prop :=
| field_quoted : forall f t, quoted_text cfg f t ->
    field_text cfg f (quotechar cfg :: t ++ [quotechar cfg])
| field_plain : forall f, (forall c, In c f -> ~ In c (special_chars cfg)) ->
    (skipinitialspace cfg = true -> hd_error f <> Some 32) -> field_text cfg f f.
(** A record: its fields, separated by delimiters. *)
Inductive record_text (cfg : tokcfg) : list text -> text -> Prop :=
| record_last : forall f t, field_text cfg f t -> record_text cfg [f] t
| record_next : forall f t fs ts, field_text cfg f t -> record_text cfg fs ts ->
    record_text cfg (f :: fs) (t ++ delimiter cfg :: ts).
Definition newline (cfg : tokcfg) (t : text) : Prop :=
  if lineterminator cfg =? 0 then t = [10] \/ t = [13; 10] \/ t = [13] else t = [lineterminator cfg].
(** A table: one record per line; the last line need not be ended.  A line is not empty (a record
    with one empty field is written with quotes). *)
Inductive table_text (cfg : tokcfg) : list (list text) -> text -> Prop :=
| table_end : forall r t, record_text cfg r t -> t <> [] -> table_text cfg [r] t
| table_last : forall r t n, record_text cfg r t -> t <> [] -> newline cfg n -> table_text cfg [r] (t ++ n)
| table_next : forall r t n rs ts, record_text cfg r t -> t <> [] -> newline cfg n ->
    table_text cfg rs ts -> table_text cfg (r :: rs) (t ++ n ++ ts).

Definition rectangular {A : Type} (n : nat) (rs : list (list A)) : Prop := Forall (fun r => length r = n) rs.

(** ** The data array *)
(** The lines used: all, or all but the last one. *)
Definition body {A : Type} (skip_footer : bool) (rs : list A) : list A :=
  if skip_footer then removelast rs else rs.
(** Place of entry ([i], [j]) of an [nr] x [nc] array. *)
Definition cell (row_major_order : bool) (nr nc i j : nat) : nat :=
  if row_major_order then (i * nc + j)%nat else (j * nr + i)%nat.
Definition converts {T : Type} (conv : text -> option T) (rs : list (list text)) : Prop :=
  forall r w, In r rs -> In w r -> conv (cstr w) <> None.
(** [a] holds the values of the fields of [rs]. *)
Definition holds {T : Type} (conv : text -> option T) (missing : T) (row_major_order : bool)
    (rs : list (list text)) (nr nc : nat) (a : list T) : Prop :=
  length a = (nr * nc)%nat /\ length rs = nr /\ rectangular nc rs /\
  forall i j r w, nth_error rs i = Some r -> nth_error r j = Some w ->
    nth_error a (cell row_major_order nr nc i j)
    = Some (match conv (cstr w) with Some v => v | None => missing end).

(** A line of [n] fields that are all [1]. *)
Definition ones (n : nat) : text := 49 :: concat (repeat [44; 49] (n - 1)).
