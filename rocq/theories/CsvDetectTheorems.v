(** Detection of column types and text fields (C29, C26). *)
From Coq Require Import ZArith List Bool Permutation String Lia.
From Verif Require Import Base F64 CsvNumModel CsvTokModel CsvTokSpec CsvTokTheorems
  CsvDetectModel CsvDetectSpec CsvDetectProofs.
Import ListNotations.
Local Open Scope Z_scope.
Local Open Scope list_scope.

(** ** C29 *)
(** Whatever the conversions of numbers, the columns found are those of the specification: the type is
    integer if all fields are integers, floating if all are numbers, boolean if all are booleans, text
    otherwise, whatever the order of the rows, and the entries are the fields in order.  No access is
    out of bounds. *)
Theorem column_types_partial : forall F of_int to_int to_fp as_fp (dflt : F) rs nrows ncols rm data,
  stores rm rs nrows ncols data ->
  exists cols,
    detect_columns F of_int to_int to_fp as_fp data nrows ncols rm = Some cols /\ List.length cols = ncols /\
    forall i, (i < ncols)%nat -> exists c, nth_error cols i = Some c /\
      c = column_of F of_int to_int to_fp as_fp dflt (nth_column i rs) /\
      column_length F c = nrows /\
      forall ws, Permutation ws (nth_column i rs) -> kind_of_column c = column_kind F to_int to_fp as_fp ws.
Proof. exact column_types_lemma. Qed.
Print Assumptions column_types_partial.

(** The columns are divided into consecutive blocks of one type each. *)
Theorem column_blocks : forall F (cols : list (column F)), cols <> [] ->
  exists bs, blocks cols = Some bs /\ covers cols 0 bs (Z.of_nat (List.length cols)).
Proof. exact @blocks_cover. Qed.
Print Assumptions column_blocks.

(** From the file to the columns, with the conversions in use. *)
Theorem written_file_detected : forall num as_fp ski rm sf (first : nat) cfg rs t nc b chunks fuel,
  writable cfg -> table_text cfg rs t -> rectangular nc rs ->
  List.concat chunks = t -> unmarked chunks -> enough fuel (with_bom b chunks) ->
  (first <= 1)%nat -> (first < List.length (body sf rs))%nat -> (0 < nc)%nat ->
  (forall r w, In r (skipn first (body sf rs)) -> In w r -> stored_as_is ski w) ->
  exists p cols bs,
    read_csv text (char_to_string ski) [] [] false rm sf (Z.of_nat first) cfg fuel (with_bom b chunks) = Some p /\
    load_detected num as_fp rm p = Some (Some (cols, bs)) /\
    cols = map (fun i => column_of f64 f64_of_Z (int64_field num) (fun w => value (double_field num w)) as_fp
                           (f64_of_Z 0) (nth_column i (skipn first (body sf rs)))) (seq 0 nc) /\
    covers cols 0 bs (Z.of_nat nc).
Proof. exact written_detected. Qed.
Print Assumptions written_file_detected.

(** Two rows: an integer after a fraction, booleans, text after an integer. *)
Definition ex_table : list (list text) :=
  [[codes "1.5"; codes "true"; codes "7"]; [codes "2"; codes "FALSE"; codes "x"]].
Example ex_stores : stores true ex_table 2 3 (List.concat ex_table).
Proof.
  split; [reflexivity|]. split; [reflexivity|]. split; [repeat constructor|].
  intros [|[|i]] [|[|[|j]]] r w Hr Hw; cbn in Hr; try (destruct i; discriminate);
    injection Hr as <-; cbn in Hw; try (destruct j; discriminate); exact Hw.
Qed.
Example ex_detected : types_of (load_default [codes "1.5,true,7" ++ [10] ++ codes "2,FALSE,x" ++ [10]])
  = Some (Some ([Floating; Boolean; Word], [(0, 0); (1, 1); (2, 2)])).
Proof. vm_compute. reflexivity. Qed.

(** A text that starts with a number is taken for the number; one that starts with the word true for a
    boolean. *)
Theorem number_prefix_refuted :
  types_of (load_default [codes "12abc"]) = Some (Some ([Floating], [(0, 0)])).
Proof. vm_compute. reflexivity. Qed.
Print Assumptions number_prefix_refuted.
Theorem boolean_prefix_refuted :
  types_of (load_default [codes "true story"]) = Some (Some ([Boolean], [(0, 0)])).
Proof. vm_compute. reflexivity. Qed.
Print Assumptions boolean_prefix_refuted.
(** A file with one empty line has no columns: the first of them is used nevertheless. *)
Theorem empty_line_refuted : types_of (load_default [[10]]) = Some None.
Proof. vm_compute. reflexivity. Qed.
Print Assumptions empty_line_refuted.

(** ** C26 *)
(** Text fields come back exactly if they do not end (nor, with skipinitialspace, start) with a blank
    and contain no zero byte.  Missing: other fields (refuted below). *)
Theorem written_text_reads_back_partial : forall ski rm sf (first : nat) cfg rs t nc b chunks fuel,
  writable cfg -> table_text cfg rs t -> rectangular nc rs ->
  List.concat chunks = t -> unmarked chunks -> enough fuel (with_bom b chunks) ->
  (first <= 1)%nat -> (first < List.length (body sf rs))%nat ->
  (forall r w, In r (skipn first (body sf rs)) -> In w r -> stored_as_is ski w) ->
  exists a, read_csv text (char_to_string ski) [] [] false rm sf (Z.of_nat first) cfg fuel (with_bom b chunks)
            = Some (Populated st_success a (Z.of_nat (List.length (body sf rs) - first)) (Z.of_nat nc)) /\
  stores rm (skipn first (body sf rs)) (List.length (body sf rs) - first) nc a.
Proof. exact written_text. Qed.
Print Assumptions written_text_reads_back_partial.

Example ex_stored_as_is : stored_as_is true (codes "a b").
Proof.
  split; [cbn; intuition discriminate|]. split.
  - intros a c E _. assert (c = 98) as ->.
    { apply (f_equal (fun l => last l 0)) in E. rewrite last_last in E. symmetry. exact E. }
    unfold space. lia.
  - intros _ c b E _. injection E as <- _. unfold space. lia.
Qed.

(** A quoted blank at the end of a field is lost. *)
Theorem trailing_blank_refuted : exists t, table_text default_cfg [[codes "a "]] t /\
  read_csv text (char_to_string false) [] [] false true false 0 default_cfg 20 [t]
  = Some (Populated st_success [codes "a"] 1 1).
Proof.
  exists [34; 97; 32; 34]. split; [|vm_compute; reflexivity].
  apply table_end; [|discriminate]. apply record_last.
  apply (field_quoted default_cfg [97; 32] [97; 32]).
  repeat (apply quoted_char; [discriminate|discriminate|]). constructor.
Qed.
Print Assumptions trailing_blank_refuted.
