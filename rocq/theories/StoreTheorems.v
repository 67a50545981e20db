(** The data store: theorems and refutations (properties C19 to C23). *)
From Coq Require Import ZArith List Bool Lia.
From Verif Require Import Base IntervalModel StoreModel StoreSpec StoreSelSpec StoreLabelSpec
  StoreLabelProofs StoreExtractProofs StoreFinalProofs StoreExamples.
Import ListNotations.
Local Open Scope Z_scope.

(** ** C19 *)
(** Full property: after any history of successful concatenations.  Missing: the histories the
    specification calls irregular, that is a row block added over column blocks whose last rows came in
    one shared row block, partial row blocks of different heights, a refusal in the middle of a row, and
    access while a row is incomplete.  The refutations show that the property fails there. *)
Theorem store_is_matrix_partial : forall (V : Type) (hs : list (call V)) l b c0,
  spec_run hs (start c0) = Some (l, b) ->
  exists t, run_store hs empty_store = Some (l, t) /\
    (filling b = None -> forall ty i j, get_element ty i j t = Some (spec_get b ty i j)).
Proof. exact elements_ok. Qed.
Print Assumptions store_is_matrix_partial.
Example store_is_matrix_example :
  let hs := [A1; B1; P1; Q1; SetElem b_int 1 1 7; LoadCol 2 1 b_double true (from 70);
             LoadCol 3 1 b_int true (from 80)] in
  exists b, spec_run hs (start zero2)
      = Some ([st_success; st_success; st_success; st_success; st_success; st_success; st_invalid_input], b)
    /\ filling b = None /\ rows b = 2 /\ n_cols b = 3
    /\ map (fun p => spec_get b (if snd p =? 2 then b_double else b_int) (fst p) (snd p))
           [(0,0); (0,1); (0,2); (1,0); (1,1); (1,2); (2,0)]
       = [(st_success, Some 10); (st_success, Some 20); (st_success, Some 70);
          (st_success, Some 40); (st_success, Some 7); (st_success, Some 71); (st_invalid_input, None)].
Proof. eexists. vm_compute. repeat split. Qed.

(** A row block over two column blocks, then one row block for each of them: every call succeeds but
    reading row 2 of column 1 goes outside the block of column 0. *)
Theorem store_shared_rows_refuted :
  let r := run_store [A1; B1; N2; P1; Q1] empty_store in
  status_of r = repeat st_success 5 /\ m (after r) = 3 /\ n (after r) = 2 /\ pend (after r) = false
  /\ get_element b_int 2 0 (after r) = Some (st_success, Some 40)
  /\ get_element b_int 2 1 (after r) = None.
Proof. vm_compute. repeat split. Qed.
Print Assumptions store_shared_rows_refuted.
(** Two row blocks over the same two column blocks: the chain of row blocks becomes circular, and the
    walk along a column never ends. *)
Theorem store_chain_loops_refuted :
  let r := run_store [A1; B1; N2; N2] empty_store in
  status_of r = repeat st_success 4 /\
  (forall fuel, column_walk fuel (heap (after r)) (Some O) 0 0 = None) /\
  (forall fuel, last_of fuel (heap (after r)) O = None).
Proof. exact loops. Qed.
Print Assumptions store_chain_loops_refuted.
(** Partial row blocks of different heights are accepted; rows are then missing. *)
Theorem store_row_heights_refuted :
  let r := run_store [A1; B1; P2; Q1] empty_store in
  status_of r = repeat st_success 4 /\ m (after r) = 3 /\ pend (after r) = false
  /\ get_element b_int 2 1 (after r) = None.
Proof. vm_compute. repeat split. Qed.
Print Assumptions store_row_heights_refuted.
(** Reading an element of an incomplete row follows a null pointer. *)
Theorem store_incomplete_row_refuted :
  let r := run_store [A1; B1; P1] empty_store in
  status_of r = repeat st_success 3 /\ m (after r) = 2 /\ n (after r) = 2 /\ pend (after r) = true
  /\ get_element b_int 1 1 (after r) = None.
Proof. vm_compute. repeat split. Qed.
Print Assumptions store_incomplete_row_refuted.

(** ** C20 *)
Theorem extract_column_exact : forall (V : Type) (hs : list (call V)) l b c0,
  spec_run hs (start c0) = Some (l, b) ->
  exists t, run_store hs empty_store = Some (l, t) /\
    forall ty i sz, extract_column ty i sz t = Some (spec_column b ty i sz).
Proof. exact column_ok. Qed.
Print Assumptions extract_column_exact.
Example extract_column_example :
  exists b, spec_run [A1; B1; P1; Q1] (start zero2) = Some (repeat st_success 4, b)
    /\ spec_column b b_int 1 2 = (st_success, [(0, 20); (1, 50)])
    /\ spec_column b b_int 1 3 = (st_invalid_input, []) /\ spec_column b b_double 1 2 = (st_invalid_input, []).
Proof. eexists. vm_compute. repeat split. Qed.

Theorem extract_slice_exact : forall (V : Type) (hs : list (call V)) l b c0 ty rws cls ld,
  spec_run hs (start c0) = Some (l, b) -> filling b = None ->
  0 <= lower rws -> lower rws <= upper rws < rows b ->
  0 <= lower cls -> lower cls <= upper cls < n_cols b -> upper rws - lower rws + 1 <= ld ->
  exists t st wr, run_store hs empty_store = Some (l, t) /\ extract_slice ty rws cls ld 0 t = Some (st, wr) /\
    ((st = st_success /\ all_type b ty (lower cls) (upper cls))
     \/ (st = st_invalid_input /\ ~ all_type b ty (lower cls) (upper cls))) /\
    (st = st_success -> forall mem p, writes mem wr p =
       match placed b false ld (span rws) (span cls) p with Some x => x | None => mem p end) /\
    (forall mem p, writes mem wr p = mem p
                   \/ placed b false ld (span rws) (span cls) p = Some (writes mem wr p)).
Proof. exact slice_ok. Qed.
Print Assumptions extract_slice_exact.
Example extract_slice_example :
  let t := after (run_store [A1; B1; P1; Q1; LoadCol 2 2 b_int true (from 60)] empty_store) in
  exists wr, extract_slice b_int (mkI 0 1) (mkI 1 3) 4 0 t = Some (st_success, wr)
    /\ map (writes (fun _ => -5) wr) [0; 1; 2; 3; 4; 5; 6; 7; 8; 9; 10; 11]
       = [20; 50; -5; -5; 60; 62; -5; -5; 61; 63; -5; -5].
Proof. eexists. vm_compute. repeat split. Qed.

(** Full property: every storage order and leading dimension.  Missing: in row-major order the selected
    columns must be consecutive; the leading dimension must cover one extracted column (row), which the
    code does not check for the whole selection. *)
Theorem extract_selection_partial : forall (V : Type) (is_missing : V -> bool) hs l w c0,
  spec_srun is_missing hs (mkView (start c0) []) = Some (l, w) ->
  exists t, srun_store is_missing hs empty_store = Some (l, t) /\
    (filling (dat w) = None -> 0 < rows (dat w) -> 0 < n_cols (dat w) -> forall k rm ty ld dflt,
     match extraction_of w k with
     | None => extract_selection k rm ty ld dflt t = Some (st_invalid_input, [])
     | Some (rs, cs, st0) =>
      fits rm ld rs cs ->
      (all_cols (dat w) ty cs -> exists wr, extract_selection k rm ty ld dflt t = Some (st0, wr) /\
         forall mem p, writes mem wr p =
           match placed (dat w) rm ld rs cs p with Some x => x | None => mem p end)
      /\ (~ all_cols (dat w) ty cs ->
          exists wr, extract_selection k rm ty ld dflt t = Some (st_invalid_input, wr) /\
          forall mem p, writes mem wr p = mem p
                        \/ placed (dat w) rm ld rs cs p = Some (writes mem wr p))
     end).
Proof. exact selection_ok. Qed.
Print Assumptions extract_selection_partial.
Definition ex_sel : list (scall Z) :=
  [Data (LoadCol 3 1 b_double false (tbl [10; 11; 12])); Data (LoadCol 3 2 b_double true (tbl [20; 30; 21; -1; 22; 32]));
   SelRows ex_key (mkI 0 0); SelRows ex_key (mkI 2 2); SelCols ex_key (mkI 1 2)].
Example extract_selection_example :
  exists w, spec_srun gap ex_sel (mkView (start zero2) []) = Some (repeat st_success 5, w)
    /\ filling (dat w) = None /\ rows (dat w) = 3 /\ n_cols (dat w) = 3
    /\ extraction_of w ex_key = Some ([0; 2], [1; 2], st_success)
    /\ map (placed (dat w) false 3 [0; 2] [1; 2]) [0; 1; 2; 3; 4; 5; 6]
       = [Some 20; Some 22; None; Some 30; Some 32; None; None]
    /\ map (placed (dat w) true 3 [0; 2] [1; 2]) [0; 1; 2; 3; 4; 5; 6]
       = [Some 20; Some 30; None; Some 22; Some 32; None; None].
Proof. eexists. vm_compute. repeat split. Qed.

(** Row-major extraction of columns 0 and 2 of a 2 by 3 array: with leading dimension 7 the library
    writes outside its temporary array; with leading dimension 2 it returns an element of the temporary
    array that was never written instead of column 2, and writes beyond the 2 by 2 result. *)
Theorem extract_row_major_refuted :
  let h := [Data (LoadCol 2 3 b_int false (from 10)); SelCols ex_key (mkI 0 0); SelCols ex_key (mkI 2 2)] in
  let r := srun_store gap h empty_store in
  status_of r = repeat st_success 3 /\ extract_selection ex_key true b_int 7 (-9) (after r) = None
  /\ exists wr, extract_selection ex_key true b_int 2 (-9) (after r) = Some (st_success, wr)
     /\ map (writes (fun _ => -5) wr) [0; 1; 2; 3; 4; 5; 6; 7; 8] = [10; -9; 11; -9; 14; -9; 15; -9; -5].
Proof. split; [reflexivity|]. split; [reflexivity|]. eexists. vm_compute. repeat split. Qed.
Print Assumptions extract_row_major_refuted.
(** Row-major, leading dimension smaller than the number of columns: accepted, rows overlap. *)
Theorem extract_row_major_ld_refuted :
  let h := [Data (LoadCol 2 3 b_int false (from 10))] in
  let r := srun_store gap h empty_store in
  exists wr, extract_selection ex_key true b_int 1 0 (after r) = Some (st_full_extraction, wr)
    /\ map (writes (fun _ => -5) wr) [0; 1; 2; 3] = [10; 11; 13; 15].
Proof. eexists. vm_compute. repeat split. Qed.
Print Assumptions extract_row_major_ld_refuted.
(** Column-major, rows 0 and 2 with leading dimension 1: accepted, columns overlap. *)
Theorem extract_column_major_ld_refuted :
  let h := [Data (LoadCol 3 2 b_int false (from 10)); SelRows ex_key (mkI 0 0); SelRows ex_key (mkI 2 2)] in
  let r := srun_store gap h empty_store in
  exists wr, extract_selection ex_key false b_int 1 0 (after r) = Some (st_success, wr)
    /\ map (writes (fun _ => -5) wr) [0; 1; 2] = [10; 12; 15].
Proof. eexists. vm_compute. repeat split. Qed.
Print Assumptions extract_column_major_ld_refuted.

(** ** C21 *)
(** Full property: any pattern of missing values.  Missing: a selection none of whose rows is complete;
    the code then leaves an empty set of rows, which every later call reads as all rows. *)
Theorem select_non_missing_partial : forall (V : Type) (is_missing : V -> bool) hs l w c0 k (full : bool) fr fc,
  spec_srun is_missing hs (mkView (start c0) []) = Some (l, w) ->
  filling (dat w) = None -> 0 < rows (dat w) -> 0 < n_cols (dat w) ->
  chosen_or_none k (chosen w) = (fr, fc) ->
  let cs := picked fc (n_cols (dat w)) in
  let keep := filter (fun r => negb (has_missing is_missing (dat w)
                                       (if full then upto (n_cols (dat w)) else cs) r))
                     (picked fr (rows (dat w))) in
  keep <> [] ->
  exists t, srun_store is_missing (hs ++ [NonMissing k full]) empty_store = Some (l ++ [st_success], t) /\
    forall rm ty ld dflt, fits rm ld keep cs -> all_cols (dat w) ty cs ->
    exists wr, extract_selection k rm ty ld dflt t = Some (st_success, wr) /\
      forall mem p, writes mem wr p =
        match placed (dat w) rm ld keep cs p with Some x => x | None => mem p end.
Proof. exact non_missing_ok. Qed.
Print Assumptions select_non_missing_partial.
Example select_non_missing_example :
  let h := [Data (LoadCol 3 1 b_double false (tbl [10; 11; 12]));
            Data (LoadCol 3 2 b_double true (tbl [20; 30; 21; -1; 22; 32])); SelCols ex_key (mkI 1 2)] in
  exists w, spec_srun gap h (mkView (start zero2) []) = Some (repeat st_success 3, w)
    /\ filling (dat w) = None /\ rows (dat w) = 3 /\ n_cols (dat w) = 3
    /\ (let '(fr, fc) := chosen_or_none ex_key (chosen w) in
        picked fc 3 = [1; 2] /\
        filter (fun r => negb (has_missing gap (dat w) [1; 2] r)) (picked fr 3) = [0; 2]).
Proof. eexists. vm_compute. repeat split. Qed.

(** No complete row: the extraction that follows returns the incomplete row. *)
Theorem select_non_missing_refuted :
  let h := [Data (LoadCol 1 2 b_double false (tbl [10; -1])); NonMissing ex_key false] in
  let r := srun_store gap h empty_store in
  status_of r = repeat st_success 2 /\
  exists wr, extract_selection ex_key false b_double 1 0 (after r) = Some (st_success, wr)
    /\ map (writes (fun _ => -5) wr) [0; 1; 2] = [10; -1; -5].
Proof. split; [reflexivity|]. eexists. vm_compute. repeat split. Qed.
Print Assumptions select_non_missing_refuted.

(** The flag: valid_rows is read one past its end exactly when the last row is selected and incomplete. *)
Theorem select_non_missing_past_end : forall (V : Type) (is_missing : V -> bool) hs l w c0 k (full : bool) fr fc t,
  spec_srun is_missing hs (mkView (start c0) []) = Some (l, w) ->
  srun_store is_missing hs empty_store = Some (l, t) ->
  filling (dat w) = None -> 0 < rows (dat w) -> 0 < n_cols (dat w) ->
  chosen_or_none k (chosen w) = (fr, fc) ->
  let cs := if full then upto (n_cols (dat w)) else picked fc (n_cols (dat w)) in
  exists t' oob, select_non_missing is_missing k full t = Some (st_success, t', oob) /\
    (oob = true <-> In (rows (dat w) - 1) (picked fr (rows (dat w)))
                    /\ has_missing is_missing (dat w) cs (rows (dat w) - 1) = true).
Proof. exact past_end_ok. Qed.
Print Assumptions select_non_missing_past_end.
Example select_non_missing_past_end_example :
  let t := after (srun_store gap [Data (LoadCol 2 1 b_double false (tbl [10; -1]))] empty_store) in
  exists t', select_non_missing gap ex_key false t = Some (st_success, t', true).
Proof. eexists. vm_compute. reflexivity. Qed.
(** On a store without data the selection that could not be created is dereferenced. *)
Theorem select_non_missing_empty_refuted :
  select_non_missing gap ex_key false empty_store = None.
Proof. reflexivity. Qed.
Print Assumptions select_non_missing_empty_refuted.

(** ** C22 *)
(** Full property: every failing call.  Missing: calls that are irregular in the state reached, see
    below.  Extraction has no effect on the store in the model, as in the code (const reads). *)
Theorem refused_call_keeps_store_partial : forall (V : Type) (is_missing : V -> bool) hs l w c0 c st t t',
  spec_srun is_missing hs (mkView (start c0) []) = Some (l, w) ->
  srun_store is_missing hs empty_store = Some (l, t) ->
  spec_scall is_missing c w <> SIrregular ->
  scall_store is_missing c t = Some (st, t') -> st <> st_success -> same_store t t'.
Proof. exact refused_ok. Qed.
Print Assumptions refused_call_keeps_store_partial.
Example refused_call_example :
  let hs := [Data A1; Data (LoadCol 1 1 b_double false (from 20))] in
  let c := Data (LoadRow 2 2 b_int true (from 30)) in
  exists w t t', spec_srun gap hs (mkView (start zero2) []) = Some (repeat st_success 2, w)
    /\ srun_store gap hs empty_store = Some (repeat st_success 2, t)
    /\ spec_scall gap c w = SRefuse st_invalid_input
    /\ scall_store gap c t = Some (st_invalid_input, t') /\ m t' = 1 /\ n t' = 2.
Proof. do 3 eexists. vm_compute. repeat split. Qed.
(** A block refused in the middle of a row removes rows from the store. *)
Theorem refused_partial_row_refuted :
  let r := run_store [A1; LoadCol 1 1 b_double false (from 20); LoadRow 2 1 b_int true (from 30);
                      LoadRow 2 1 b_int true (from 40)] empty_store in
  let r0 := run_store [A1; LoadCol 1 1 b_double false (from 20); LoadRow 2 1 b_int true (from 30)] empty_store in
  status_of r = [st_success; st_success; st_success; st_invalid_input]
  /\ m (after r0) = 3 /\ m (after r) = 1 /\ pend (after r) = true.
Proof. vm_compute. repeat split. Qed.
Print Assumptions refused_partial_row_refuted.

(** ** C23 *)
(** What labels are after any history, regular or not (without horizontal concatenation): the column
    first given the label and the label last given to the column. *)
Theorem labels_exact : forall (V : Type) (is_missing : V -> bool) hs sts t,
  lrun_store is_missing hs empty_store = Some (sts, t) ->
  (forall x, get_col_idx x t = match first_column x (accepted hs sts) with
                               | Some i => (st_success, Some i)
                               | None => (st_invalid_input, None)
                               end)
  /\ (forall i, get_col_label i t = Some (if (0 <=? i) && (i <? n t)
                                          then (st_success, match last_label i (accepted hs sts) with
                                                            | Some x => x | None => [] end)
                                          else (st_invalid_input, []))).
Proof. exact labels_ok. Qed.
Print Assumptions labels_exact.
(** Full property: any label.  Missing: a label given to two columns (refuted below). *)
Theorem label_identifies_column_partial : forall (V : Type) (is_missing : V -> bool) hs sts t x i e1 e2,
  lrun_store is_missing hs empty_store = Some (sts, t) ->
  accepted hs sts = e1 ++ (x, i) :: e2 ->
  (forall j, In (x, j) (accepted hs sts) -> j = i) -> (forall y j, In (y, j) e2 -> j <> i) ->
  get_col_idx x t = (st_success, Some i) /\ get_col_label i t = Some (st_success, x).
Proof. exact label_found. Qed.
Print Assumptions label_identifies_column_partial.
Definition lab (z : Z) : str := [z].
Example label_identifies_column_example :
  let h := [Other (Data (LoadCol 1 2 b_int false (from 10))); Label (lab 97) 0; Label (lab 98) 0;
            Label (lab 99) 5; Other (Data A1); Label (lab 99) 2] in
  exists t, lrun_store gap h empty_store
     = Some ([st_success; st_success; st_success; st_invalid_input; st_success; st_success], t)
    /\ accepted h [st_success; st_success; st_success; st_invalid_input; st_success; st_success]
       = [(lab 97, 0); (lab 98, 0); (lab 99, 2)]
    /\ get_col_idx (lab 98) t = (st_success, Some 0) /\ get_col_label 0 t = Some (st_success, lab 98)
    /\ get_col_label 1 t = Some (st_success, []).
Proof. eexists. vm_compute. repeat split. Qed.
(** Labelling column 1 with the label of column 0 succeeds, but the label still finds column 0. *)
Theorem label_reused_refuted :
  let h := [Other (Data (LoadCol 1 2 b_int false (from 10))); Label (lab 97) 0; Label (lab 97) 1] in
  exists t, lrun_store gap h empty_store = Some (repeat st_success 3, t)
    /\ get_col_idx (lab 97) t = (st_success, Some 0) /\ get_col_label 1 t = Some (st_success, lab 97).
Proof. eexists. vm_compute. repeat split. Qed.
Print Assumptions label_reused_refuted.
(** After a horizontal concatenation the new columns cannot be labelled, and asking for their label
    reads outside the table. *)
Theorem label_after_concatenation_refuted :
  let s1 := after (run_store [A1] empty_store) in
  let s2 := after (run_store [B1] empty_store) in
  exists t, horizontal_concat s1 s2 = Some (st_success, t) /\ n t = 2
    /\ get_element b_int 0 1 t = Some (st_success, Some 20)
    /\ fst (label_column (lab 97) 1 t) = st_internal_error /\ get_col_label 1 t = None.
Proof. eexists. vm_compute. repeat split. Qed.
Print Assumptions label_after_concatenation_refuted.
