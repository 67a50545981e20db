(** Reading CSV files (C26, C27, C28, C59). *)
From Coq Require Import ZArith List Bool Lia.
From Verif Require Import Base CsvTokModel CsvTokSpec CsvReadProofs.
Import ListNotations.
Local Open Scope Z_scope.

(** ** C26 *)
(** A table written in any of the usual ways is read back exactly, whatever the chunks. *)
Theorem written_table_reads_back : forall cfg rs t nc b chunks fuel,
  writable cfg -> table_text cfg rs t -> rectangular nc rs ->
  concat chunks = t -> unmarked chunks -> enough fuel (with_bom b chunks) ->
  exists st d, tokenize_all cfg fuel (with_bom b chunks) = Done st d /\ table d = rs.
Proof. exact written_table. Qed.
Print Assumptions written_table_reads_back.

(** The data array then holds the values of the fields, in the order asked for. *)
Theorem written_data_reads_back : forall (T : Type) (conv : text -> option T) zero missing warn rm sf
    (first : nat) cfg rs t nc b chunks fuel,
  writable cfg -> table_text cfg rs t -> rectangular nc rs ->
  concat chunks = t -> unmarked chunks -> enough fuel (with_bom b chunks) ->
  (first <= 1)%nat -> (first < length (body sf rs))%nat -> converts conv (skipn first (body sf rs)) ->
  exists a, read_csv T conv zero missing warn rm sf (Z.of_nat first) cfg fuel (with_bom b chunks)
            = Some (Populated st_success a (Z.of_nat (length (body sf rs) - first)) (Z.of_nat nc)) /\
  holds conv missing rm (skipn first (body sf rs)) (length (body sf rs) - first) nc a.
Proof. exact @written_data. Qed.
Print Assumptions written_data_reads_back.

(** Two lines: a quoted field with a delimiter inside and [c]; an empty field and a quoted field with an
    escaped quote inside. *)
Definition ex_rows : list (list text) := [[[97; 44; 98]; [99]]; [[]; [100; 34; 101]]].
Definition ex_text : text := [34; 97; 44; 98; 34; 44; 99; 13; 10; 44; 34; 100; 92; 34; 101; 34].
Example default_writable : writable default_cfg.
Proof.
  unfold writable. cbn. split; [|repeat split; discriminate].
  repeat (constructor; [cbn; intuition discriminate|]). constructor.
Qed.
Example ex_text_table : table_text default_cfg ex_rows ex_text.
Proof.
  apply (table_next default_cfg [[97; 44; 98]; [99]] [34; 97; 44; 98; 34; 44; 99] [13; 10]).
  - apply (record_next default_cfg [97; 44; 98] [34; 97; 44; 98; 34]).
    + apply (field_quoted default_cfg [97; 44; 98] [97; 44; 98]).
      repeat (apply quoted_char; [discriminate|discriminate|]). constructor.
    + apply record_last. apply field_plain; [|discriminate].
      intros c [<- |[]]. cbn. intuition discriminate.
  - discriminate.
  - unfold newline. cbn. auto.
  - apply table_end; [|discriminate].
    apply (record_next default_cfg [] []).
    + apply field_plain; [intros c []|discriminate].
    + apply record_last. apply (field_quoted default_cfg [100; 34; 101] [100; 92; 34; 101]).
      apply quoted_char; [discriminate|discriminate|].
      apply (quoted_escape default_cfg 34 [101] [101]); [discriminate|].
      apply quoted_char; [discriminate|discriminate|]. constructor.
Qed.
Example ex_unmarked : unmarked [firstn 9 ex_text; skipn 9 ex_text].
Proof. intros c r [<- |[<- |[]]]; discriminate. Qed.
Example ex_read :
  read_csv text Some [] [] false true false 0 default_cfg 40 [bom ++ firstn 9 ex_text; skipn 9 ex_text]
  = Some (Populated st_success [[97; 44; 98]; [99]; []; [100; 34; 101]] 2 2).
Proof. vm_compute. reflexivity. Qed.

(** ** C27 *)
(** The same text in two different chunkings, with or without a byte order mark before it, gives the
    same table: always when no line is shorter than the one before; otherwise (then short lines are
    padded and the parser may run out of space) whenever both runs end normally.
    Missing: texts with a byte order mark at the start of a later chunk; skipping of empty lines
    without delim_whitespace (both refuted below). *)
Theorem chunking_irrelevant_partial : forall cfg fuel1 fuel2 b1 b2 chunks1 chunks2,
  no_back cfg -> unmarked chunks1 -> unmarked chunks2 -> concat chunks1 = concat chunks2 ->
  (forall st1 d1 st2 d2,
     tokenize_all cfg fuel1 (with_bom b1 chunks1) = Done st1 d1 ->
     tokenize_all cfg fuel2 (with_bom b2 chunks2) = Done st2 d2 -> table d1 = table d2) /\
  (forall rs, enough fuel1 (with_bom b1 chunks1) -> enough fuel2 (with_bom b2 chunks2) ->
     ideal cfg (concat chunks1) = Some rs -> nondecreasing 0 rs ->
     exists st1 d1 st2 d2, tokenize_all cfg fuel1 (with_bom b1 chunks1) = Done st1 d1 /\
       tokenize_all cfg fuel2 (with_bom b2 chunks2) = Done st2 d2 /\ table d1 = rs /\ table d2 = rs).
Proof.
  exact (fun cfg f1 f2 b1 b2 c1 c2 NB U1 U2 E =>
    conj (fun st1 d1 st2 d2 => chunking_same cfg f1 f2 b1 b2 c1 c2 st1 d1 st2 d2 NB U1 U2 E)
         (fun rs F1 F2 => chunking_total cfg f1 f2 b1 b2 c1 c2 rs NB U1 U2 E F1 F2)).
Qed.
Print Assumptions chunking_irrelevant_partial.

Example ex_chunkings :
  match tokenize_all default_cfg 40 [ex_text], tokenize_all default_cfg 40 (map (fun c => [c]) ex_text) with
  | Done _ d1, Done _ d2 => table d1 = ex_rows /\ table d2 = ex_rows
  | _, _ => False
  end.
Proof. vm_compute. auto. Qed.

(** The bytes 239 187 191 inside the first line disappear when a chunk begins with them. *)
Theorem chunking_mark_refuted : exists chunks1 chunks2 st1 d1 st2 d2, concat chunks1 = concat chunks2 /\
  tokenize_all default_cfg 20 chunks1 = Done st1 d1 /\ tokenize_all default_cfg 20 chunks2 = Done st2 d2 /\
  table d1 = [[[97; 239; 187; 191; 98]]] /\ table d2 = [[[97; 98]]].
Proof.
  exists [[97; 239; 187; 191; 98]], [[97]; [239; 187; 191; 98]].
  do 4 eexists. vm_compute. repeat split; reflexivity.
Qed.
Print Assumptions chunking_mark_refuted.

(** When empty lines are skipped, blanks that start a line are lost if a chunk ends after them. *)
Theorem chunking_blanks_refuted : exists chunks1 chunks2 st1 d1 st2 d2, concat chunks1 = concat chunks2 /\
  tokenize_all skip_cfg 20 chunks1 = Done st1 d1 /\ tokenize_all skip_cfg 20 chunks2 = Done st2 d2 /\
  table d1 = [[[97]]; [[32; 98]]] /\ table d2 = [[[97]]; [[98]]].
Proof.
  exists [[97; 10; 32; 98]], [[97; 10; 32]; [98]].
  do 4 eexists. vm_compute. repeat split; reflexivity.
Qed.
Print Assumptions chunking_blanks_refuted.

(** ** C28 *)
(** If a file was parsed to its end and its data were accepted, all the lines used (headings
    included) have the same number of fields, the array holds their values, and the status is success
    exactly when all fields could be converted; without the option "warn for missing data" all of
    them could.  If the lines differ in length the read is refused.  A file that ends inside quotes is
    never parsed to its end.  Missing: the failure of the parser reaches the caller, and short lines
    are refused (both refuted below). *)
Theorem malformed_reported_partial : forall (T : Type) (conv : text -> option T) zero missing warn rm sf
    (first : nat) cfg fuel b chunks,
  no_back cfg -> unmarked chunks -> (first <= 1)%nat ->
  (forall st d, tokenize_all cfg fuel (with_bom b chunks) = Done st d ->
     (exists rs, ideal cfg (concat chunks) = Some rs /\ table d = pad_rows 0 rs) /\
     (forall st1 a nr nc, populate T conv zero missing warn rm sf (Z.of_nat first) d = Populated st1 a nr nc ->
        exists nrn ncn, nr = Z.of_nat nrn /\ nc = Z.of_nat ncn /\ rectangular ncn (body sf (table d)) /\
          holds conv missing rm (skipn first (body sf (table d))) nrn ncn a /\
          (warn = false -> converts conv (skipn first (body sf (table d)))) /\
          (st1 = st_success <-> converts conv (skipn first (body sf (table d))))) /\
     ((forall n, ~ rectangular n (body sf (table d))) ->
        populate T conv zero missing warn rm sf (Z.of_nat first) d = Refused)) /\
  (ideal cfg (concat chunks) = None ->
   forall st d, tokenize_all cfg fuel (with_bom b chunks) <> Done st d).
Proof. exact @malformed_reported_lemma. Qed.
Print Assumptions malformed_reported_partial.

Example ex_ragged : read_csv text Some [] [] false true false 0 default_cfg 20 [[97; 10; 98; 44; 99]] = Some Refused.
Proof. vm_compute. reflexivity. Qed.

(** The line [1,2], then a quote and [3,4]: the unterminated quoted field is dropped with its line and the read succeeds. *)
Theorem unterminated_quote_refuted : exists chunks, ideal default_cfg (concat chunks) = None /\
  read_csv text Some [] [] false true false 0 default_cfg 40 chunks
  = Some (Populated st_success [[49]; [50]] 1 2).
Proof. exists [[49; 44; 50; 10; 34; 51; 44; 52]]. vm_compute. split; reflexivity. Qed.
Print Assumptions unterminated_quote_refuted.

(** [a,b LF c]: the missing field is read as an empty one. *)
Theorem short_line_refuted : exists chunks, ideal default_cfg (concat chunks) = Some [[[97]; [98]]; [[99]]] /\
  read_csv text Some [] [] false true false 0 default_cfg 40 chunks
  = Some (Populated st_success [[97]; [98]; [99]; []] 2 2).
Proof. exists [[97; 44; 98; 10; 99]]. vm_compute. split; reflexivity. Qed.
Print Assumptions short_line_refuted.

(** Padding uses up space reserved for the rest of the file: the parser stops with an error, which is
    dropped, and the last line is missing although the read succeeds. *)
Theorem lost_line_refuted : exists chunks rs a, ideal default_cfg (concat chunks) = Some rs /\
  length rs = 10%nat /\ last rs [] = repeat [49] 5 /\
  read_csv text Some [] [] false true false 0 default_cfg 100 chunks = Some (Populated st_success a 9 5) /\
  a = repeat [49] 5 ++ concat (repeat [[49]; []; []; []; []] 8).
Proof.
  exists [ones 5 ++ [10] ++ concat (repeat [49; 10] 8) ++ ones 5].
  do 2 eexists. vm_compute. repeat split; reflexivity.
Qed.
Print Assumptions lost_line_refuted.

(** [1 CR blank 2 CR] with empty lines skipped: the reader goes back to the start of the chunk, reads
    the first line again and again until the space is used up, and the read succeeds. *)
Theorem repeated_line_refuted : exists chunks, concat chunks = [49; 13; 32; 50; 13] /\
  read_csv text Some [] [] false true false 0 skip_cfg 100 chunks
  = Some (Populated st_success (repeat [49] 6) 6 1).
Proof. exists [[49; 13; 32; 50; 13]]. vm_compute. split; reflexivity. Qed.
Print Assumptions repeated_line_refuted.

(** [# c CR , 1 LF]: after a comment ended by CR the first delimiter is lost, and with it a field. *)
Theorem comment_field_refuted : exists chunks st d, concat chunks = [35; 99; 13; 44; 49; 10] /\
  tokenize_all default_cfg 100 chunks = Done st d /\ table d = [[[49]]].
Proof. exists [[35; 99; 13; 44; 49; 10]]. do 2 eexists. vm_compute. repeat split; reflexivity. Qed.
Print Assumptions comment_field_refuted.

(** ** C59 *)
(** Filling the data array uses valid indices only, whether or not the parser failed; and the parser
    stays inside its buffers when no line is shorter than the one before.
    Missing: files with short lines (refuted below). *)
Theorem csv_in_bounds_partial : forall (T : Type) (conv : text -> option T) zero missing warn rm sf
    (first : nat) cfg fuel b chunks,
  no_back cfg -> unmarked chunks -> (first <= 1)%nat ->
  (forall d, parsed (tokenize_all cfg fuel (with_bom b chunks)) = Some d ->
     populate T conv zero missing warn rm sf (Z.of_nat first) d <> BadAccess) /\
  (forall rs, enough fuel (with_bom b chunks) -> ideal cfg (concat chunks) = Some rs -> nondecreasing 0 rs ->
     exists p, read_csv T conv zero missing warn rm sf (Z.of_nat first) cfg fuel (with_bom b chunks) = Some p /\
               p <> BadAccess).
Proof.
  exact (fun T conv zero missing warn rm sf first cfg fuel b chunks NB U F =>
    conj (fun d => populate_in_bounds conv zero missing warn rm sf first cfg fuel b chunks d NB U F)
         (fun rs => no_padding_in_bounds conv zero missing warn rm sf first cfg fuel b chunks rs NB U F)).
Qed.
Print Assumptions csv_in_bounds_partial.

(** A short line uses up the token stream: a word is left without its terminating 0 at the end of the
    allocated block and is read past it. *)
Theorem csv_in_bounds_refuted : exists chunks, tokenize_all default_cfg 100 chunks = Undefined.
Proof.
  exists [repeat 97 7 ++ repeat 44 4 ++ repeat 10 10 ++ repeat 44 4 ++ [10] ++ repeat 44 4].
  vm_compute. reflexivity.
Qed.
Print Assumptions csv_in_bounds_refuted.
