(** Model of the CSV tokenizer (source/core/csv/tokenizer.c, parser.hpp, read_csv.hpp).

    Characters are byte values 0 .. 255.  The arrays [words], [line_start] and [line_fields] are
    lists; the token stream is kept as the list of finished words, the characters of the word being
    read and the number of bytes used.  The capacities of all arrays are explicit.  realloc is taken
    to succeed.  [quoting] is QUOTE_MINIMAL, [usecols] is 1, [expected_fields] and [header_end] are
    -1 and the line limit is never reached: their values in every run of the library. *)
From Coq Require Import ZArith List Bool.
From Verif Require Import Base.
Import ListNotations.
Local Open Scope Z_scope.

(** The settings read by csv_reader::read_options, csv_reader.hpp:69-165; 0 stands for '\0'. *)
Record tokcfg := mkTokcfg {
  delimiter : Z; quotechar : Z; escapechar : Z; commentchar : Z; lineterminator : Z;
  doublequote : bool; delim_whitespace : bool; skip_empty_lines : bool; skipinitialspace : bool;
  skip_first : Z; skip_rows : list Z }.
(** csv_options.hpp:36-118 *)
Definition default_cfg : tokcfg :=
  mkTokcfg 44 34 92 35 0 false false false false (-1) [].
(** The default settings, but empty lines are skipped. *)
Definition skip_cfg : tokcfg :=
  mkTokcfg 44 34 92 35 0 false false true false (-1) [].

(** tokenizer.h:67-92 *)
Inductive tstate :=
  START_RECORD | START_FIELD | ESCAPED_CHAR | IN_FIELD | IN_QUOTED_FIELD | ESCAPE_IN_QUOTED_FIELD
| QUOTE_IN_QUOTED_FIELD | EAT_CRNL | EAT_CRNL_NOP | EAT_WHITESPACE | EAT_COMMENT | EAT_LINE_COMMENT
| WHITESPACE_LINE | START_FIELD_IN_SKIP_LINE | IN_FIELD_IN_SKIP_LINE | IN_QUOTED_FIELD_IN_SKIP_LINE
| QUOTE_IN_QUOTED_FIELD_IN_SKIP_LINE.

(** What the state machine does to the data, in order. *)
Inductive event := Push (c : Z) | EndField | EndLine | EndSkippedLine | FileLine.
(** Where it goes next: to the next character, to the same one again, or back to the start of the
    line or chunk. *)
Inductive move := Advance | Stay | Back.

Section Machine.
Variable cfg : tokcfg.

(** tokenizer.c:725-743, 776-782 *)
Definition is_terminator (c : Z) : bool := c =? (if lineterminator cfg =? 0 then 10 else lineterminator cfg).
Definition is_carriage (c : Z) : bool := (lineterminator cfg =? 0) && (c =? 13).
Definition is_quote (c : Z) : bool := c =? quotechar cfg.
Definition is_comment (c : Z) : bool := negb (commentchar cfg =? 0) && (c =? commentchar cfg).
Definition is_escape (c : Z) : bool := negb (escapechar cfg =? 0) && (c =? escapechar cfg).
Definition isblank (c : Z) : bool := (c =? 32) || (c =? 9).
Definition is_skippable (c : Z) : bool :=
  negb (delim_whitespace cfg) && (c =? 32) && skipinitialspace cfg.
Definition is_delimiter (c : Z) : bool :=
  (negb (delim_whitespace cfg) && (c =? delimiter cfg)) || (delim_whitespace cfg && isblank c).
(** tokenizer.c:756-765 *)
Definition skip_this_line (file_lines : Z) : bool :=
  (file_lines <=? skip_first cfg) || existsb (Z.eqb file_lines) (skip_rows cfg).

Definition reaction : Type := list event * tstate * move.
Definition go (st : tstate) : reaction := ([], st, Advance).

(** tokenizer.c:965-999, case START_FIELD *)
Definition start_field (c : Z) : reaction :=
  if is_terminator c then ([EndField; EndLine], START_RECORD, Advance)
  else if is_carriage c then ([EndField], EAT_CRNL, Advance)
  else if is_quote c then go IN_QUOTED_FIELD
  else if is_escape c then go ESCAPED_CHAR
  else if is_skippable c then go START_FIELD
  else if is_delimiter c then
    if delim_whitespace cfg then go EAT_WHITESPACE else ([EndField], START_FIELD, Advance)
  else if is_comment c then ([EndField], EAT_COMMENT, Advance)
  else ([Push c], IN_FIELD, Advance).

(** tokenizer.c:908-963, case START_RECORD; [skip]: skip_this_line of the current line *)
Definition start_record (skip : bool) (c : Z) : reaction :=
  if skip then
    if is_quote c then go IN_QUOTED_FIELD_IN_SKIP_LINE
    else if is_terminator c then ([EndSkippedLine], START_RECORD, Advance)
    else go IN_FIELD_IN_SKIP_LINE
  else if is_terminator c then
    if skip_empty_lines cfg then ([FileLine], START_RECORD, Advance)
    else ([EndLine], START_RECORD, Advance)
  else if is_carriage c then
    if skip_empty_lines cfg then ([FileLine], EAT_CRNL_NOP, Advance) else go EAT_CRNL
  else if is_comment c then go EAT_LINE_COMMENT
  else if isblank c && delim_whitespace cfg then
    if skip_empty_lines cfg then go WHITESPACE_LINE else go EAT_WHITESPACE
  else if isblank c && negb (c =? delimiter cfg) && skip_empty_lines cfg then go WHITESPACE_LINE
  else start_field c.

(** tokenizer.c:889-906, case EAT_WHITESPACE *)
Definition eat_whitespace (skip : bool) (c : Z) : reaction :=
  if is_terminator c then ([EndLine], START_RECORD, Advance)
  else if is_carriage c then go EAT_CRNL
  else if is_comment c then go EAT_COMMENT
  else if negb (isblank c) then start_record skip c
  else go EAT_WHITESPACE.

(** tokenizer.c:808-1153: one character in one state *)
Definition react (skip : bool) (st : tstate) (c : Z) : reaction :=
  match st with
  | START_FIELD_IN_SKIP_LINE =>
      if is_terminator c then ([EndSkippedLine], START_RECORD, Advance)
      else if is_carriage c then ([FileLine], EAT_CRNL_NOP, Advance)
      else if is_quote c then go IN_QUOTED_FIELD_IN_SKIP_LINE
      else if is_delimiter c then go START_FIELD_IN_SKIP_LINE
      else go IN_FIELD_IN_SKIP_LINE
  | IN_FIELD_IN_SKIP_LINE =>
      if is_terminator c then ([EndSkippedLine], START_RECORD, Advance)
      else if is_carriage c then ([FileLine], EAT_CRNL_NOP, Advance)
      else if is_delimiter c then go START_FIELD_IN_SKIP_LINE
      else go IN_FIELD_IN_SKIP_LINE
  | IN_QUOTED_FIELD_IN_SKIP_LINE =>
      if is_quote c then
        if doublequote cfg then go QUOTE_IN_QUOTED_FIELD_IN_SKIP_LINE else go IN_FIELD_IN_SKIP_LINE
      else go IN_QUOTED_FIELD_IN_SKIP_LINE
  | QUOTE_IN_QUOTED_FIELD_IN_SKIP_LINE =>
      if is_quote c then go IN_QUOTED_FIELD_IN_SKIP_LINE
      else if is_terminator c then ([EndSkippedLine], START_RECORD, Advance)
      else if is_carriage c then ([FileLine], EAT_CRNL_NOP, Advance)
      else if is_delimiter c then go START_FIELD_IN_SKIP_LINE
      else go IN_FIELD_IN_SKIP_LINE
  | WHITESPACE_LINE =>
      if is_terminator c then ([FileLine], START_RECORD, Advance)
      else if is_carriage c then ([FileLine], EAT_CRNL_NOP, Advance)
      else if negb (delim_whitespace cfg) then
        if isblank c && negb (c =? delimiter cfg) then go WHITESPACE_LINE
        else ([], START_FIELD, Back)
      else eat_whitespace skip c
  | EAT_WHITESPACE => eat_whitespace skip c
  | START_RECORD => start_record skip c
  | START_FIELD => start_field c
  | ESCAPED_CHAR => ([Push c], IN_FIELD, Advance)
  | EAT_LINE_COMMENT =>
      if is_terminator c then ([FileLine], START_RECORD, Advance)
      else if is_carriage c then ([FileLine], EAT_CRNL_NOP, Advance)
      else go EAT_LINE_COMMENT
  | IN_FIELD =>
      if is_terminator c then ([EndField; EndLine], START_RECORD, Advance)
      else if is_carriage c then ([EndField], EAT_CRNL, Advance)
      else if is_escape c then go ESCAPED_CHAR
      else if is_delimiter c then
        ([EndField], if delim_whitespace cfg then EAT_WHITESPACE else START_FIELD, Advance)
      else if is_comment c then ([EndField], EAT_COMMENT, Advance)
      else ([Push c], IN_FIELD, Advance)
  | IN_QUOTED_FIELD =>
      if is_escape c then go ESCAPE_IN_QUOTED_FIELD
      else if is_quote c then if doublequote cfg then go QUOTE_IN_QUOTED_FIELD else go IN_FIELD
      else ([Push c], IN_QUOTED_FIELD, Advance)
  | ESCAPE_IN_QUOTED_FIELD => ([Push c], IN_QUOTED_FIELD, Advance)
  | QUOTE_IN_QUOTED_FIELD =>
      if is_quote c then ([Push c], IN_QUOTED_FIELD, Advance)
      else if is_delimiter c then
        ([EndField], if delim_whitespace cfg then EAT_WHITESPACE else START_FIELD, Advance)
      else if is_terminator c then ([EndField; EndLine], START_RECORD, Advance)
      else if is_carriage c then ([EndField], EAT_CRNL, Advance)
      else ([Push c], IN_FIELD, Advance)
  | EAT_COMMENT =>
      if is_terminator c then ([EndLine], START_RECORD, Advance)
      else if is_carriage c then go EAT_CRNL
      else go EAT_COMMENT
  | EAT_CRNL =>
      if c =? 10 then ([EndLine], START_RECORD, Advance)
      else if is_delimiter c then
        if delim_whitespace cfg then ([EndLine], EAT_WHITESPACE, Advance)
        else ([EndLine; EndField], START_FIELD, Advance)
      else ([EndLine], START_RECORD, Stay)
  | EAT_CRNL_NOP =>
      ([], START_RECORD, if negb (c =? 10) && negb (is_delimiter c) then Stay else Advance)
  end.

(** ** The data *)
Record data := mkData {
  words : list (list Z);       (* finished words *)
  cur : list Z;                (* the word being read, from word_start on *)
  stream_len : Z; stream_cap : Z; words_cap : Z; lines_cap : Z;
  lines : list (Z * Z);        (* line_start, line_fields of the finished lines *)
  line_start : Z; nfields : Z; (* of the current line *)
  file_lines : Z }.

(** [Failed]: an error is returned; [Oob]: a word is left without terminator at the end of the
    stream (the status of push_char is ignored), so that reading it leaves the allocation. *)
Inductive res := Ok (d : data) | Failed (d : data) | Oob.

Definition words_len (d : data) : Z := Z.of_nat (length (words d)).
Definition lines_len (d : data) : Z := Z.of_nat (length (lines d)).

(** tokenizer.c:67-92: the least [cap * 2 ^ k] greater than [t] *)
Definition grow (cap t : Z) : Z := if t <? cap then cap else cap * 2 ^ (Z.log2 (t / cap) + 1).
(** STREAM_INIT_SIZE, tokenizer.h:38, and max_words_cap, tokenizer.c:251-255 *)
Definition stream_init : Z := 32.
Definition max_words_cap : Z := 3.

(** tokenizer.c:308-409 *)
Definition make_stream_space (nbytes : Z) (d : data) : data :=
  let length := if words_len d + nbytes <? max_words_cap then max_words_cap - nbytes - 1
                else words_len d in
  mkData (words d) (cur d) (stream_len d)
    (grow (stream_cap d) (stream_len d + nbytes * 2))
    (grow (words_cap d) (length + nbytes))
    (grow (lines_cap d) (lines_len d + 1 + nbytes))
    (lines d) (line_start d) (nfields d) (file_lines d).

(** PUSH_CHAR, tokenizer.c:674-686 *)
Definition push (c : Z) (d : data) : res :=
  if stream_len d >=? stream_cap d then Failed d
  else Ok (mkData (words d) (cur d ++ [c]) (stream_len d + 1) (stream_cap d) (words_cap d) (lines_cap d)
             (lines d) (line_start d) (nfields d) (file_lines d)).

(** tokenizer.c:428-462 *)
Definition end_field (d : data) : res :=
  if words_len d >=? words_cap d then Failed d
  else if stream_len d >=? stream_cap d then Oob
  else Ok (mkData (words d ++ [cur d]) [] (stream_len d + 1) (stream_cap d) (words_cap d) (lines_cap d)
             (lines d) (line_start d) (nfields d + 1) (file_lines d)).

(** tokenizer.c:562-565: close missing fields; a failure of end_field is ignored *)
Fixpoint pad (n : nat) (d : data) : res :=
  match n with
  | O => Ok d
  | S n' => match end_field d with Ok d' | Failed d' => pad n' d' | Oob => Oob end
  end.

(** tokenizer.c:482-594, states other than the skipping ones *)
Definition end_line (d : data) : res :=
  let fields := nfields d in
  let ex := match lines d with [] => -1 | _ => snd (last (lines d) (0, 0)) end in
  let padded := if fields <? ex
                then pad (Z.to_nat (ex - fields)) (make_stream_space (ex - fields) d) else Ok d in
  let fields := Z.max fields ex in
  match padded with
  | Ok d =>
      let d' := mkData (words d) (cur d) (stream_len d) (stream_cap d) (words_cap d) (lines_cap d)
                  (lines d ++ [(line_start d, nfields d)]) (line_start d + fields) 0 (file_lines d + 1) in
      if lines_len d' >=? lines_cap d' then Failed d' else Ok d'
  | r => r
  end.
(** tokenizer.c:502-516 *)
Definition end_skipped_line (d : data) : data :=
  mkData (words d) (cur d) (stream_len d) (stream_cap d) (words_cap d) (lines_cap d)
    (lines d) (line_start d + nfields d) 0 (file_lines d + 1).
Definition file_line (d : data) : data :=
  mkData (words d) (cur d) (stream_len d) (stream_cap d) (words_cap d) (lines_cap d)
    (lines d) (line_start d) (nfields d) (file_lines d + 1).

Definition exec1 (e : event) (d : data) : res :=
  match e with
  | Push c => push c d
  | EndField => end_field d
  | EndLine => end_line d
  | EndSkippedLine => Ok (end_skipped_line d)
  | FileLine => Ok (file_line d)
  end.
Fixpoint exec (evs : list event) (d : data) : res :=
  match evs with
  | [] => Ok d
  | e :: evs' => match exec1 e d with Ok d' => exec evs' d' | r => r end
  end.

(** ** Running over a chunk *)
(** tokenizer.c:871-884: back to the character after the last terminator, or to the start *)
Fixpoint rewind (before after : list Z) : list Z * list Z :=
  match before with
  | c :: b => if is_terminator c then (before, after) else rewind b (c :: after)
  | [] => ([], after)
  end.

Inductive result := Done (st : tstate) (d : data) | Error (d : data) | Undefined | Looping.

(** tokenizer.c:800-1155; [before]: the characters of the chunk already read, last first *)
Fixpoint run (fuel : nat) (st : tstate) (d : data) (before after : list Z) : result :=
  match after with
  | [] => Done st d
  | c :: r =>
      match fuel with
      | O => Looping
      | S fuel' =>
          let '(evs, st', mv) := react (skip_this_line (file_lines d)) st c in
          match exec evs d with
          | Ok d' =>
              match mv with
              | Advance => run fuel' st' d' (c :: before) r
              | Stay => run fuel' st' d' before after
              | Back => let (b, a) := rewind before after in run fuel' st' d' b a
              end
          | Failed d' => Error d'
          | Oob => Undefined
          end
      end
  end.

(** CHECK_FOR_BOM, tokenizer.c:750-754 *)
Definition drop_bom (l : list Z) : list Z :=
  match l with
  | a :: b :: c :: r => if (a =? 239) && (b =? 187) && (c =? 191) then r else l
  | _ => l
  end.

(** tokenize_bytes, tokenizer.c:767-1177, on one chunk *)
Definition tokenize_bytes (fuel : nat) (st : tstate) (d : data) (chunk : list Z) : result :=
  let d := make_stream_space (Z.of_nat (length chunk)) d in
  let chunk := if file_lines d =? 0 then drop_bom chunk else chunk in
  run fuel st d [] chunk.

(** parser_handle_eof, tokenizer.c:1179-1222 *)
Definition handle_eof (st : tstate) (d : data) : result :=
  let close r := match r with Ok d => Done st d | Failed d => Error d | Oob => Undefined end in
  match st with
  | START_RECORD | WHITESPACE_LINE | EAT_CRNL_NOP | EAT_LINE_COMMENT => Done st d
  | ESCAPE_IN_QUOTED_FIELD | IN_QUOTED_FIELD | ESCAPED_CHAR => Error d
  | IN_FIELD | START_FIELD | QUOTE_IN_QUOTED_FIELD => close (exec [EndField; EndLine] d)
  | START_FIELD_IN_SKIP_LINE | IN_FIELD_IN_SKIP_LINE | IN_QUOTED_FIELD_IN_SKIP_LINE
  | QUOTE_IN_QUOTED_FIELD_IN_SKIP_LINE => Done st (end_skipped_line d)
  | _ => close (exec [EndLine] d)
  end.

(** _tokenize_helper, tokenizer.c:1385-1428, over the chunks delivered by read_bytes *)
Fixpoint tokenize (fuel : nat) (st : tstate) (d : data) (chunks : list (list Z)) : result :=
  match chunks with
  | [] => handle_eof st d
  | chunk :: rest =>
      match tokenize_bytes fuel st d chunk with
      | Done st' d' => tokenize fuel st' d' rest
      | r => r
      end
  end.

(** parser_init, tokenizer.c:226-298 *)
Definition init_data : data := mkData [] [] 0 stream_init max_words_cap max_words_cap [] 0 0 0.
Definition tokenize_all (fuel : nat) (chunks : list (list Z)) : result :=
  tokenize fuel START_RECORD init_data chunks.
End Machine.

(** ** Reading a file *)
(** parse_file, read_csv.hpp:80-130: a failure of the tokenizer is recorded in the error trace but
    the status stays success; the data parsed so far are used. *)
Definition parsed (r : result) : option data :=
  match r with Done _ d | Error d => Some d | _ => None end.

(** Words are C strings. *)
Fixpoint cstr (l : list Z) : list Z :=
  match l with [] => [] | c :: r => if c =? 0 then [] else c :: cstr r end.

(** populate_data_array, read_csv.hpp:132-247.  [conv] is char_to_num, [missing] the value stored
    for missing data when [warn] is set.  The result: status, data array (by index), rows, columns. *)
Inductive population (T : Type) :=
| Populated (st : da_status) (a : list T) (nrows ncols : Z)
| NoData (ncols : Z)                       (* a warning; status parsing_error *)
| Refused                                  (* da_status_parsing_error *)
| BadAccess.                               (* an index outside its array *)
Arguments Populated {T} st a nrows ncols. Arguments NoData {T} ncols. Arguments Refused {T}.
Arguments BadAccess {T}.

Fixpoint update {T : Type} (n : nat) (v : T) (l : list T) : option (list T) :=
  match l, n with
  | [], _ => None
  | x :: l', O => Some (v :: l')
  | x :: l', S n' => option_map (cons x) (update n' v l')
  end.

Section Populate.
Variable T : Type.
Variable conv : list Z -> option T.
Variables zero missing : T.
Variables warn row_major_order : bool.

(** lines 201-242: the fields of line [i] *)
Fixpoint fill_line (ws : list (list Z)) (i first nlines fpl start j : Z) (k : nat)
    (st : da_status) (a : list T) : population T :=
  match k with
  | O => Populated st a 0 0
  | S k' =>
      if j <? 0 then BadAccess else
      match nth_error ws (Z.to_nat j) with
      | None => BadAccess
      | Some w =>
          let index := if row_major_order then (j - start) + (i - first) * fpl
                       else (i - first) + (j - start) * (nlines - first) in
          if index <? 0 then BadAccess else
          let '(v, st') := match conv (cstr w) with
                           | Some v => (Some v, st)
                           | None => if warn then (Some missing, st_missing_data) else (None, st)
                           end in
          match v with
          | None => Refused
          | Some v => match update (Z.to_nat index) v a with
                      | None => BadAccess
                      | Some a' => fill_line ws i first nlines fpl start (j + 1) k' st' a'
                      end
          end
      end
  end.
(** lines 188-243 *)
Fixpoint fill (ws : list (list Z)) (ls : list (Z * Z)) (i first nlines fpl : Z) (st : da_status)
    (a : list T) : population T :=
  match ls with
  | [] => Populated st a (nlines - first) fpl
  | (start, fields) :: ls' =>
      if negb (fields =? fpl) then Refused
      else match fill_line ws i first nlines fpl start start (Z.to_nat fields) st a with
           | Populated st' a' _ _ => fill ws ls' (i + 1) first nlines fpl st' a'
           | r => r
           end
  end.
(** lines 132-186 *)
Definition populate (skip_footer : bool) (first : Z) (d : data) : population T :=
  let nlines := lines_len d in
  if (nlines =? 0) || (skip_footer && (nlines =? 1)) then NoData 0
  else
    let wl := if skip_footer then words_len d - snd (last (lines d) (0, 0)) else words_len d in
    let ls := if skip_footer then removelast (lines d) else lines d in
    let nlines := if skip_footer then nlines - 1 else nlines in
    if nlines =? first then NoData wl
    else
      let fpl := wl / nlines in
      fill (words d) (skipn (Z.to_nat first) ls) first first nlines fpl st_success
        (repeat zero (Z.to_nat (fpl * (nlines - first)))).
End Populate.

(** parse_and_process / read_csv, read_csv.hpp:293-353, without the headings *)
Definition read_csv (T : Type) (conv : list Z -> option T) (zero missing : T)
    (warn row_major_order skip_footer : bool) (first : Z) (cfg : tokcfg) (fuel : nat)
    (chunks : list (list Z)) : option (population T) :=
  match parsed (tokenize_all cfg fuel chunks) with
  | Some d => Some (populate T conv zero missing warn row_major_order skip_footer first d)
  | None => None
  end.
