(** Proofs about the detection of column types. *)
From Coq Require Import ZArith List Bool Arith Lia Permutation.
From Verif Require Import Base F64 CsvNumModel CsvTokModel CsvTokSpec CsvReadProofs CsvDetectModel CsvDetectSpec.
Import ListNotations.
Local Open Scope Z_scope.

Lemma const_repeat {A : Type} (x : A) n : forall k, map (fun _ : nat => x) (seq k n) = repeat x n.
Proof. induction n as [|n IH]; intros k; cbn; auto. f_equal. apply IH. Qed.

Section Column.
Variable F : Type.
Variable of_int : Z -> F.
Variable to_int : text -> option Z.
Variable to_fp : text -> option F.
Variable as_fp : bool.
Variable dflt : F.
Notation kind_of := (kind_of F to_int to_fp as_fp).
Notation all_kinds := (all_kinds F to_int to_fp as_fp).
Notation column_kind := (column_kind F to_int to_fp as_fp).
Notation column_of := (column_of F of_int to_int to_fp as_fp dflt).
Notation as_float := (as_float F of_int to_int to_fp as_fp dflt).
Notation get_number := (get_number F to_int to_fp as_fp).

Lemma get_number_kind w :
  match kind_of w with
  | Integer => get_number w = Some (EInt (as_int to_int w)) /\ as_float w = of_int (as_int to_int w)
  | Floating => get_number w = Some (EFp (as_float w))
  | Boolean => get_number w = Some (EBool (as_bool w))
  | Word => get_number w = None
  end.
Proof.
  unfold CsvDetectSpec.as_float. unfold CsvDetectModel.get_number, CsvDetectSpec.kind_of, as_int, as_bool.
  destruct as_fp; [|destruct (to_int w)]; destruct (to_fp w); try destruct (char_to_bool w); cbn; auto.
Qed.

Lemma all_kinds_snoc ok ws w : all_kinds ok (ws ++ [w]) = all_kinds ok ws && ok (kind_of w).
Proof. unfold CsvDetectSpec.all_kinds. rewrite forallb_app. cbn. rewrite andb_true_r. auto. Qed.
Lemma int_num ws : all_kinds is_int ws = true -> all_kinds is_num ws = true.
Proof.
  unfold CsvDetectSpec.all_kinds. rewrite !forallb_forall. intros H x Hx. specialize (H x Hx).
  destruct (kind_of x); auto.
Qed.
Lemma num_bool ws : all_kinds is_num ws = true -> all_kinds is_bool ws = true -> ws = [].
Proof.
  unfold CsvDetectSpec.all_kinds. destruct ws as [|w ws]; auto. cbn.
  destruct (kind_of w); cbn; discriminate.
Qed.
Lemma ints_as_float ws : all_kinds is_int ws = true -> map as_float ws = map of_int (map (as_int to_int) ws).
Proof.
  intros H. rewrite map_map. apply map_ext_in. intros w Hw. unfold CsvDetectSpec.all_kinds in H.
  rewrite forallb_forall in H. specialize (H w Hw). pose proof (get_number_kind w) as G.
  destruct (kind_of w); try discriminate. apply G.
Qed.

Lemma step_column data nrows ncols rm i j ws w :
  word data nrows ncols rm i j = Some w -> length ws = j ->
  words_upto data nrows ncols rm i j = Some (ws ++ [w]) ->
  detect_element F of_int to_int to_fp as_fp data nrows ncols rm (column_of ws) i j
  = Some (column_of (ws ++ [w])).
Proof.
  intros Hw Hj Hu. unfold detect_element. rewrite Hw.
  pose proof (get_number_kind w) as G.
  assert (CC : convert_col_to_char F data nrows ncols rm i j = Some (ColText (ws ++ [w]))).
  { unfold convert_col_to_char. rewrite Hu. auto. }
  unfold CsvDetectSpec.column_of, CsvDetectSpec.column_kind. rewrite !all_kinds_snoc.
  destruct (all_kinds is_int ws) eqn:AI.
  - rewrite (int_num ws AI). cbn [andb].
    destruct (kind_of w) eqn:K; cbn [is_int is_num is_bool andb] in *.
    + destruct G as [-> _]. cbn. rewrite map_app. auto.
    + rewrite G. cbn [update_column]. rewrite map_length, <- Hj, Nat.leb_refl.
      rewrite firstn_all2 by (rewrite map_length; lia).
      rewrite <- ints_as_float by auto. rewrite map_app. auto.
    + rewrite G. cbn [update_column]. destruct (Nat.eqb_spec j 0) as [-> |N].
      * destruct ws; [|discriminate]. auto.
      * rewrite CC. destruct (all_kinds is_bool ws) eqn:AB; auto.
        exfalso. apply N. rewrite <- Hj. rewrite (num_bool ws); auto. apply int_num; auto.
    + rewrite G, CC. rewrite andb_false_r. auto.
  - cbn [andb]. destruct (all_kinds is_num ws) eqn:AN; cbn [andb].
    + assert (NB : all_kinds is_bool ws = false).
      { destruct (all_kinds is_bool ws) eqn:AB; auto. rewrite (num_bool ws AN AB) in AI. discriminate. }
      assert (J0 : (j =? 0)%nat = false).
      { apply Nat.eqb_neq. intros ->. destruct ws; discriminate. }
      rewrite NB. cbn [andb].
      destruct (kind_of w) eqn:K; cbn [is_num] in *.
      * destruct G as [-> E]. cbn [update_column]. rewrite map_app. cbn [map]. rewrite E. auto.
      * rewrite G. cbn [update_column]. rewrite map_app. auto.
      * rewrite G. cbn [update_column]. rewrite J0, CC. auto.
      * rewrite G, CC. auto.
    + destruct (all_kinds is_bool ws) eqn:AB; cbn [andb].
      * destruct (kind_of w) eqn:K; cbn [is_bool] in *.
        -- destruct G as [-> _]. cbn [update_column]. auto.
        -- rewrite G. cbn [update_column]. auto.
        -- rewrite G. cbn [update_column]. rewrite map_app. auto.
        -- rewrite G, CC. auto.
      * assert (J0 : (j =? 0)%nat = false).
        { apply Nat.eqb_neq. intros ->. destruct ws; discriminate. }
        assert (G' : get_number w = None \/ exists e, get_number w = Some e).
        { destruct (get_number w); eauto. }
        destruct G' as [-> |[[z|x|b] ->]]; cbn [update_column]; rewrite ?J0, ?CC; auto.
Qed.

Lemma column_of_length ws : column_length F (column_of ws) = length ws.
Proof. unfold CsvDetectSpec.column_of. destruct (column_kind ws); cbn; rewrite ?map_length; auto. Qed.
Lemma column_of_kind ws : kind_of_column (column_of ws) = column_kind ws.
Proof. unfold CsvDetectSpec.column_of. destruct (column_kind ws); auto. Qed.
Lemma all_kinds_perm ok ws ws' : Permutation ws ws' -> all_kinds ok ws = all_kinds ok ws'.
Proof.
  intros P. unfold CsvDetectSpec.all_kinds. apply eq_true_iff_eq. rewrite !forallb_forall.
  split; intros H x Hx; apply H; [apply Permutation_sym in P|]; apply (Permutation_in _ P); auto.
Qed.
Lemma column_kind_perm ws ws' : Permutation ws ws' -> column_kind ws = column_kind ws'.
Proof. intros P. unfold CsvDetectSpec.column_kind. rewrite !(all_kinds_perm _ ws ws' P). auto. Qed.

(** ** The whole table *)
Section Table.
Variable rs : list (list text).
Variables nrows ncols : nat.
Variable rm : bool.
Variable data : list text.
Hypothesis S : stores rm rs nrows ncols data.

Lemma word_is i j : (i < ncols)%nat -> (j < nrows)%nat ->
  word data nrows ncols rm i j = Some (nth i (nth j rs []) []).
Proof.
  intros Hi Hj. destruct S as (_ & L & R & H). unfold word.
  assert (E : nth_error rs j = Some (nth j rs [])) by (apply nth_error_nth'; lia).
  assert (Lr : length (nth j rs []) = ncols).
  { unfold rectangular in R. rewrite Forall_forall in R. apply R. apply nth_In. lia. }
  assert (E2 : nth_error (nth j rs []) i = Some (nth i (nth j rs []) [])) by (apply nth_error_nth'; lia).
  specialize (H j i _ _ E E2). rewrite <- H. f_equal. unfold cell. destruct rm; lia.
Qed.
Lemma nth_column_firstn i k : (k < nrows)%nat ->
  nth_column i (firstn (Datatypes.S k) rs) = nth_column i (firstn k rs) ++ [nth i (nth k rs []) []].
Proof.
  intros H. destruct S as (_ & L & _). rewrite <- L in H. clear S L. unfold nth_column.
  revert k H. induction rs as [|r l IH]; intros k H; cbn [length] in H; [lia|].
  destruct k as [|k]; [reflexivity|]. cbn [firstn map app nth]. f_equal. apply IH. lia.
Qed.
Lemma words_upto_is i k : (i < ncols)%nat -> (k < nrows)%nat ->
  words_upto data nrows ncols rm i k = Some (nth_column i (firstn (Datatypes.S k) rs)).
Proof.
  intros Hi Hk. induction k as [|k IH]; cbn [words_upto].
  - rewrite word_is by auto. rewrite nth_column_firstn by auto. reflexivity.
  - rewrite word_is, IH by lia. rewrite (nth_column_firstn i (Datatypes.S k)) by auto. auto.
Qed.
Definition cols_at (n j : nat) (from : nat) : list (column F) :=
  map (fun i => column_of (nth_column i (firstn j rs))) (seq from n).
Lemma detect_row_is j : (j < nrows)%nat -> forall n from, (from + n <= ncols)%nat ->
  detect_row F of_int to_int to_fp as_fp data nrows ncols rm (cols_at n j from) from j
  = Some (cols_at n (Datatypes.S j) from).
Proof.
  intros Hj. induction n as [|n IH]; intros from Hf; [reflexivity|].
  unfold cols_at. cbn [seq map detect_row].
  rewrite step_column with (w := nth from (nth j rs []) []).
  - fold (cols_at n j (Datatypes.S from)). rewrite IH by lia. rewrite nth_column_firstn by auto. auto.
  - apply word_is; lia.
  - unfold nth_column. rewrite map_length, firstn_length. destruct S as (_ & L & _). lia.
  - rewrite words_upto_is, nth_column_firstn by lia. auto.
Qed.
Lemma detect_rows_is : forall k j, (j + k = nrows)%nat ->
  detect_rows F of_int to_int to_fp as_fp data nrows ncols rm k j (cols_at ncols j 0) = Some (cols_at ncols nrows 0).
Proof.
  induction k as [|k IH]; intros j H; cbn [detect_rows].
  - replace j with nrows by lia. auto.
  - rewrite detect_row_is by lia. apply IH. lia.
Qed.
Lemma detect_columns_is :
  detect_columns F of_int to_int to_fp as_fp data nrows ncols rm
  = Some (map (fun i => column_of (nth_column i rs)) (seq 0 ncols)).
Proof.
  unfold detect_columns. replace (repeat (ColInt []) ncols) with (cols_at ncols 0 0).
  - rewrite (detect_rows_is nrows 0 eq_refl). unfold cols_at.
    destruct S as (_ & L & _). rewrite firstn_all2 by lia. auto.
  - unfold cols_at. cbn [firstn]. change (column_of (nth_column 0 [])) with (@ColInt F []).
    exact (const_repeat (@ColInt F []) ncols 0).
Qed.
End Table.
End Column.

(** ** Blocks *)
Lemma type_index_kind {F} (a b : column F) : type_index a = type_index b <-> kind_of_column a = kind_of_column b.
Proof. destruct a, b; cbn; split; intros; congruence. Qed.

Lemma block_loop_covers {F} (cols rest pre : list (column F)) : forall seen (c : column F) i start,
  cols = pre ++ (c :: seen) ++ rest -> Forall (fun x => kind_of_column x = kind_of_column c) seen ->
  start = Z.of_nat (length pre) -> i = Z.of_nat (length (pre ++ c :: seen)) ->
  covers cols start (block_loop F rest i start (type_index c)) (Z.of_nat (length cols)).
Proof.
  revert pre. induction rest as [|d rest IH]; intros pre seen c i start E Hs Hst Hi.
  - rewrite app_nil_r in E. subst cols. cbn [block_loop covers].
    assert (Hl : start <= i - 1 < i) by (subst; rewrite app_length; cbn [length]; lia).
    rewrite <- Hi. split; [auto|]. split; [lia|]. split; [|lia].
    exists (kind_of_column c). intros k x Hk Hx. subst start i.
    rewrite nth_error_app2 in Hx by lia. apply nth_error_In in Hx. rewrite Forall_forall in Hs.
    destruct Hx as [<- |Hx]; auto.
  - cbn [block_loop]. destruct (Z.eqb_spec (type_index d) (type_index c)) as [T|T].
    + apply type_index_kind in T. apply (IH pre (seen ++ [d])).
      * subst cols. cbn. rewrite <- ?app_assoc. auto.
      * apply Forall_app. split; auto.
      * auto.
      * subst i. rewrite !app_length. cbn [length]. rewrite ?app_length. cbn. lia.
    + cbn [covers]. split; [auto|].
      assert (Lc : Z.of_nat (length cols) = i + 1 + Z.of_nat (length rest)).
      { subst. rewrite !app_length. cbn [length]. rewrite ?app_length. cbn [length]. lia. }
      split; [subst start i; rewrite app_length in *; cbn [length] in *; lia|]. split.
      * exists (kind_of_column c). intros k x Hk Hx. subst cols.
        rewrite app_assoc in Hx. rewrite nth_error_app1 in Hx by lia.
        rewrite nth_error_app2 in Hx by lia. apply nth_error_In in Hx. rewrite Forall_forall in Hs.
        destruct Hx as [<- |Hx]; auto.
      * replace (i - 1 + 1) with i by lia. apply (IH (pre ++ c :: seen) []).
        -- subst cols. cbn. rewrite <- ?app_assoc. auto.
        -- constructor.
        -- auto.
        -- subst i. rewrite !app_length. cbn [length]. lia.
Qed.
Lemma blocks_cover {F} (cols : list (column F)) : cols <> [] ->
  exists bs, blocks cols = Some bs /\ covers cols 0 bs (Z.of_nat (length cols)).
Proof.
  destruct cols as [|c r]; [congruence|]. intros _. eexists. split; [reflexivity|].
  apply (block_loop_covers (c :: r) r [] [] c); auto.
Qed.

(** ** Text *)
Lemma space_iff c : isspace_ascii c = true <-> space c.
Proof.
  unfold isspace_ascii, space. rewrite orb_true_iff, andb_true_iff, Z.eqb_eq, !Z.leb_le. lia.
Qed.
Lemma strip_id l : (forall c b, l = c :: b -> b <> [] -> ~ space c) -> strip l = l.
Proof.
  intros H. destruct l as [|c [|d r]]; auto. cbn [strip].
  destruct (isspace_ascii c) eqn:E; auto. apply space_iff in E. destruct (H c (d :: r) eq_refl); auto. discriminate.
Qed.
Lemma cstr_id l : ~ In 0 l -> cstr l = l.
Proof.
  induction l as [|c l IH]; intros H; cbn; auto. destruct (Z.eqb_spec c 0) as [-> |N].
  - destruct H. left. auto.
  - f_equal. apply IH. intros Z. apply H. right. auto.
Qed.
Lemma stored_text ski w : stored_as_is ski w -> char_to_string ski (cstr w) = Some w.
Proof.
  intros (H0 & H1 & H2). rewrite cstr_id by auto. unfold char_to_string. f_equal.
  assert (E : (if ski then strip w else w) = w) by (destruct ski; auto; apply strip_id, H2, eq_refl).
  rewrite E. rewrite strip_id; [apply rev_involutive|].
  intros c b Eb Hb. apply (H1 (rev b) c).
  - rewrite <- (rev_involutive w), Eb. auto.
  - intros Z. apply Hb. rewrite <- (rev_involutive b), Z. auto.
Qed.

Lemma holds_stores ski rm rs nr nc a : (forall r w, In r rs -> In w r -> stored_as_is ski w) ->
  holds (char_to_string ski) [] rm rs nr nc a -> stores rm rs nr nc a.
Proof.
  intros H (L & Lr & R & C). split; [auto|]. split; [auto|]. split; [auto|].
  intros i j r w Hr Hw. rewrite (C i j r w Hr Hw). rewrite stored_text; auto.
  apply (H r); eapply nth_error_In; eauto.
Qed.
Lemma text_converts ski rs : converts (char_to_string ski) rs.
Proof. intros r w _ _. discriminate. Qed.

(** ** Reading and detecting *)
Lemma written_text ski rm sf (first : nat) cfg rs t nc b chunks fuel :
  writable cfg -> table_text cfg rs t -> rectangular nc rs ->
  concat chunks = t -> unmarked chunks -> enough fuel (with_bom b chunks) ->
  (first <= 1)%nat -> (first < length (body sf rs))%nat ->
  (forall r w, In r (skipn first (body sf rs)) -> In w r -> stored_as_is ski w) ->
  exists a, read_csv text (char_to_string ski) [] [] false rm sf (Z.of_nat first) cfg fuel (with_bom b chunks)
            = Some (Populated st_success a (Z.of_nat (length (body sf rs) - first)) (Z.of_nat nc)) /\
  stores rm (skipn first (body sf rs)) (length (body sf rs) - first) nc a.
Proof.
  intros W Tt R Ec U En Hf Hl Hs.
  destruct (written_data (char_to_string ski) [] [] false rm sf first cfg rs t nc b chunks fuel)
    as (a & Ea & Ha); auto using text_converts.
  exists a. split; auto. eapply holds_stores; eauto.
Qed.
Lemma written_detected num as_fp ski rm sf (first : nat) cfg rs t nc b chunks fuel :
  writable cfg -> table_text cfg rs t -> rectangular nc rs ->
  concat chunks = t -> unmarked chunks -> enough fuel (with_bom b chunks) ->
  (first <= 1)%nat -> (first < length (body sf rs))%nat -> (0 < nc)%nat ->
  (forall r w, In r (skipn first (body sf rs)) -> In w r -> stored_as_is ski w) ->
  exists p cols bs,
    read_csv text (char_to_string ski) [] [] false rm sf (Z.of_nat first) cfg fuel (with_bom b chunks) = Some p /\
    load_detected num as_fp rm p = Some (Some (cols, bs)) /\
    cols = map (fun i => column_of f64 f64_of_Z (int64_field num) (fun w => value (double_field num w)) as_fp
                           (f64_of_Z 0) (nth_column i (skipn first (body sf rs)))) (seq 0 nc) /\
    covers cols 0 bs (Z.of_nat nc).
Proof.
  intros W Tt R Ec U En Hf Hl Hnc Hs.
  destruct (written_text ski rm sf first cfg rs t nc b chunks fuel) as (a & Ea & Ha); auto.
  set (cols := map (fun i => column_of f64 f64_of_Z (int64_field num) (fun w => value (double_field num w)) as_fp
                           (f64_of_Z 0) (nth_column i (skipn first (body sf rs)))) (seq 0 nc)).
  assert (Lc : length cols = nc) by (unfold cols; rewrite map_length, seq_length; auto).
  destruct (blocks_cover cols) as (bs & Eb & Cb).
  { intros Z. rewrite Z in Lc. cbn in Lc. lia. }
  rewrite Lc in Cb. do 3 eexists. split; [exact Ea|]. unfold load_detected. rewrite !Nat2Z.id.
  rewrite detect_columns_is with (dflt := f64_of_Z 0) (rs := skipn first (body sf rs)) by auto.
  fold cols. rewrite Eb. split; [reflexivity|]. split; auto.
Qed.

Lemma column_types_lemma F of_int to_int to_fp as_fp (dflt : F) rs nrows ncols rm data :
  stores rm rs nrows ncols data ->
  exists cols,
    detect_columns F of_int to_int to_fp as_fp data nrows ncols rm = Some cols /\ length cols = ncols /\
    forall i, (i < ncols)%nat -> exists c, nth_error cols i = Some c /\
      c = column_of F of_int to_int to_fp as_fp dflt (nth_column i rs) /\
      column_length F c = nrows /\
      forall ws, Permutation ws (nth_column i rs) -> kind_of_column c = column_kind F to_int to_fp as_fp ws.
Proof.
  intros H. eexists. split; [apply (detect_columns_is F of_int to_int to_fp as_fp dflt rs nrows ncols rm data H)|].
  split; [rewrite map_length, seq_length; auto|]. intros i Hi.
  eexists. split.
  - rewrite nth_error_map. rewrite (nth_error_nth' (seq 0 ncols) 0%nat) by (rewrite seq_length; auto).
    rewrite seq_nth by auto. reflexivity.
  - cbn [Nat.add]. split; [auto|]. split.
    + rewrite column_of_length. unfold nth_column. rewrite map_length. apply H.
    + intros ws P. rewrite column_of_kind. symmetry. apply column_kind_perm. auto.
Qed.
