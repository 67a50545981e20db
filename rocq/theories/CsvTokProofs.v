(** Proofs about the CSV tokenizer: it computes the ideal reading of the file. *)
From Coq Require Import ZArith List Bool Lia.
From Verif Require Import Base CsvTokModel CsvTokSpec.
Import ListNotations.
Local Open Scope Z_scope.

Notation len l := (Z.of_nat (length l)).

(** ** Rows *)
Fixpoint index (start : Z) (P : list (list text)) : list (Z * Z) :=
  match P with [] => [] | r :: P' => (start, len r) :: index (start + len r) P' end.
Lemma index_snoc start P r :
  index start (P ++ [r]) = index start P ++ [(start + len (concat P), len r)].
Proof.
  revert start. induction P as [|q P IH]; intros start; cbn [app index concat].
  - cbn [length]. rewrite Z.add_0_r. auto.
  - rewrite IH. cbn [app]. rewrite app_length.
    replace (start + len q + len (concat P)) with (start + Z.of_nat (length q + length (concat P))) by lia.
    auto.
Qed.
Lemma index_length start P : length (index start P) = length P.
Proof. revert start. induction P; intros; cbn; auto. Qed.
Lemma index_last start P r d : snd (last (index start (P ++ [r])) d) = len r.
Proof. rewrite index_snoc, last_last. auto. Qed.

Definition last_len (prev : nat) (P : list (list text)) : nat :=
  match P with [] => prev | _ => length (last P []) end.
Lemma last_len_cons prev r P : last_len prev (r :: P) = last_len (length r) P.
Proof. destruct P; reflexivity. Qed.
Lemma pad_rows_snoc prev rs r : pad_rows prev (rs ++ [r]) =
  pad_rows prev rs ++ [r ++ repeat [] (last_len prev (pad_rows prev rs) - length r)].
Proof.
  revert prev. induction rs as [|q rs IH]; intros prev; cbn [app pad_rows].
  - reflexivity.
  - rewrite IH. cbn [app]. rewrite last_len_cons. reflexivity.
Qed.
Lemma pad_rows_id prev rs : nondecreasing prev rs -> pad_rows prev rs = rs.
Proof.
  revert prev. induction rs as [|r rs IH]; intros prev; cbn; auto. intros [H1 H2].
  replace (prev - length r)%nat with 0%nat by lia. cbn [repeat]. rewrite app_nil_r. f_equal. auto.
Qed.
Lemma nondecreasing_app prev a b : nondecreasing prev (a ++ b) -> nondecreasing prev a.
Proof. revert prev. induction a; cbn; intros prev; auto. intros [H1 H2]. eauto. Qed.
Lemma nondecreasing_last prev rs r : nondecreasing prev (rs ++ [r]) -> (last_len prev rs <= length r)%nat.
Proof.
  revert prev. induction rs as [|q rs IH]; intros prev; cbn [app nondecreasing].
  - cbn. tauto.
  - intros [H1 H2]. rewrite last_len_cons. auto.
Qed.
Lemma table_of_index P rest start pre : len pre = start ->
  map (fun l => firstn (Z.to_nat (snd l)) (skipn (Z.to_nat (fst l)) (pre ++ concat P ++ rest)))
      (index start P) = P.
Proof.
  revert start pre. induction P as [|r P IH]; intros start pre H; cbn [index map concat]; auto.
  cbn [fst snd]. rewrite !Nat2Z.id. f_equal.
  - rewrite <- H, Nat2Z.id. rewrite skipn_app, skipn_all, Nat.sub_diag. cbn [app skipn].
    rewrite <- app_assoc. rewrite firstn_app, firstn_all, Nat.sub_diag. cbn. apply app_nil_r.
  - specialize (IH (start + len r) (pre ++ r)). rewrite <- !app_assoc in *. apply IH.
    rewrite app_length. lia.
Qed.

(** ** Capacities *)
Lemma grow_gt cap t : 1 <= cap -> 0 <= t -> t < grow cap t /\ cap <= grow cap t.
Proof.
  intros Hc Ht. unfold grow. destruct (t <? cap) eqn:E; [apply Z.ltb_lt in E; lia|].
  apply Z.ltb_ge in E. set (q := t / cap).
  assert (Hq : 1 <= q). { subst q. apply Z.div_le_lower_bound; lia. }
  pose proof (Z.log2_spec q ltac:(lia)) as [L1 L2]. rewrite <- Z.add_1_r in L2.
  pose proof (Z.div_mod t cap ltac:(lia)) as D. fold q in D.
  pose proof (Z.mod_pos_bound t cap ltac:(lia)) as M.
  set (p := 2 ^ (Z.log2 q + 1)) in *. clearbody p q. nia.
Qed.

Definition caps (d : data) : Prop := 1 <= stream_cap d /\ 3 <= words_cap d /\ 1 <= lines_cap d /\ 0 <= stream_len d.
Lemma space_caps n d : 0 <= n -> caps d ->
  caps (make_stream_space n d) /\
  stream_len d + 2 * n < stream_cap (make_stream_space n d) /\
  words_len d + n < words_cap (make_stream_space n d) /\
  lines_len d + 1 + n < lines_cap (make_stream_space n d).
Proof.
  intros Hn (C1 & C2 & C3 & C4). unfold caps, make_stream_space.
  cbn [stream_cap words_cap lines_cap stream_len].
  assert (W : 0 <= words_len d) by (unfold words_len; lia).
  assert (L : 0 <= lines_len d) by (unfold lines_len; lia).
  pose proof (grow_gt (stream_cap d) (stream_len d + n * 2) ltac:(lia) ltac:(lia)).
  pose proof (grow_gt (lines_cap d) (lines_len d + 1 + n) ltac:(lia) ltac:(lia)).
  unfold max_words_cap in *. cbv zeta. destruct (words_len d + n <? 3) eqn:E.
  - apply Z.ltb_lt in E.
    pose proof (grow_gt (words_cap d) (3 - n - 1 + n) ltac:(lia) ltac:(lia)). lia.
  - pose proof (grow_gt (words_cap d) (words_len d + n) ltac:(lia) ltac:(lia)). lia.
Qed.

(** ** The data represent the ideal document *)
Definition rep (d : data) (s : doc) : Prop :=
  let P := pad_rows 0 (rows s) in
  words d = concat P ++ row s /\ cur d = field s /\ lines d = index 0 P /\
  line_start d = len (concat P) /\ nfields d = len (row s) /\ file_lines d = nline s.

Lemma rep_space n d s : rep d s -> rep (make_stream_space n d) s.
Proof. intros H. exact H. Qed.

Lemma push_rep c d s : rep d s -> caps d ->
  match push c d with
  | Ok d' => rep d' (iexec1 (Push c) s) /\ caps d'
  | Failed d' => rep d' s
  | Oob => True
  end.
Proof.
  intros (H1 & H2 & H3 & H4 & H5 & H6) C. unfold push. destruct (_ >=? _) eqn:E.
  - repeat split; auto.
  - unfold caps in *. rewrite Z.geb_leb in E. apply Z.leb_gt in E.
    split; [repeat split; cbn; auto; congruence|cbn; lia].
Qed.
Lemma end_field_rep d s : rep d s -> caps d ->
  match end_field d with
  | Ok d' => rep d' (iexec1 EndField s) /\ caps d'
  | Failed d' => rep d' s
  | Oob => True
  end.
Proof.
  intros (H1 & H2 & H3 & H4 & H5 & H6) C. unfold end_field. destruct (_ >=? _) eqn:E.
  - repeat split; auto.
  - destruct (stream_len d >=? _) eqn:E2; auto.
    split; [|unfold caps in *; cbn; lia]. unfold rep. cbn [words cur lines line_start nfields file_lines iexec1 rows row field nline].
    rewrite H1, H2. repeat split; auto.
    + rewrite app_assoc. auto.
    + rewrite H5, app_length. cbn. lia.
Qed.

(** Closing [n] fields when there is room. *)
Lemma pad_ok n d : cur d = [] -> words_len d + Z.of_nat n < words_cap d ->
  stream_len d + Z.of_nat n < stream_cap d ->
  pad n d = Ok (mkData (words d ++ repeat [] n) [] (stream_len d + Z.of_nat n) (stream_cap d) (words_cap d)
                 (lines_cap d) (lines d) (line_start d) (nfields d + Z.of_nat n) (file_lines d)).
Proof.
  revert d. induction n as [|n IH]; intros d Hc Hw Hs.
  - cbn [pad repeat]. rewrite app_nil_r, !Z.add_0_r. destruct d; cbn in *; subst; auto.
  - cbn [pad]. unfold end_field.
    replace (words_len d >=? words_cap d) with false by (symmetry; rewrite Z.geb_leb; apply Z.leb_gt; lia).
    replace (stream_len d >=? stream_cap d) with false by (symmetry; rewrite Z.geb_leb; apply Z.leb_gt; lia).
    rewrite IH; cbn [words cur stream_len stream_cap words_cap lines_cap lines line_start nfields file_lines]; auto.
    + rewrite Hc. rewrite <- app_assoc. cbn [repeat app]. f_equal. f_equal; lia.
    + unfold words_len in *. cbn. rewrite app_length. cbn. lia.
    + lia.
Qed.

Lemma rep_last d s : rep d s ->
  (match lines d with [] => -1 | _ => snd (last (lines d) (0, 0)) end)
  = match rows s with [] => -1 | _ => Z.of_nat (last_len 0 (pad_rows 0 (rows s))) end.
Proof.
  intros (_ & _ & H & _). rewrite H. destruct (rows s) as [|r0 rs0] eqn:E; [reflexivity|].
  destruct (@exists_last _ (pad_rows 0 (rows s))) as (P & r & EP).
  { rewrite E. discriminate. }
  rewrite <- E, EP. destruct (index 0 (P ++ [r])) as [|p q] eqn:X.
  - apply (f_equal (@length _)) in X. rewrite index_length, app_length in X. cbn in X. lia.
  - rewrite <- X, index_last. unfold last_len. destruct (P ++ [r]) eqn:Y.
    + destruct P; discriminate.
    + rewrite <- Y, last_last. auto.
Qed.

Lemma end_line_rep d s : rep d s -> caps d -> field s = [] ->
  match end_line d with
  | Ok d' => rep d' (iexec1 EndLine s) /\ caps d'
  | Failed d' => rep d' (iexec1 EndLine s)
  | Oob => False
  end.
Proof.
  intros R C F. pose proof (rep_last d s R) as EL.
  pose proof R as (H1 & H2 & H3 & H4 & H5 & H6). unfold end_line.
  rewrite EL. set (ex := match rows s with [] => -1 | _ => _ end) in *.
  set (k := (last_len 0 (pad_rows 0 (rows s)) - length (row s))%nat).
  assert (K : Z.max (nfields d) ex = len (row s) + Z.of_nat k /\
              (nfields d <? ex = true -> Z.to_nat (ex - nfields d) = k) /\
              (nfields d <? ex = false -> k = 0%nat)).
  { subst k ex. rewrite H5. destruct (rows s) as [|r0 rs0].
    - cbn [pad_rows last_len]. rewrite Z.ltb_ge. split; [lia|]. split; [|lia].
      intros E. apply Z.ltb_lt in E. lia.
    - rewrite Z.ltb_lt, Z.ltb_ge. split; [lia|]. split; lia. }
  destruct K as (K1 & K2 & K3).
  assert (E : exists d1, (if nfields d <? ex then pad (Z.to_nat (ex - nfields d)) (make_stream_space (ex - nfields d) d)
                          else Ok d) = Ok d1 /\ caps d1 /\
     words d1 = concat (pad_rows 0 (rows s)) ++ row s ++ repeat [] k /\ cur d1 = [] /\
     lines d1 = lines d /\ line_start d1 = line_start d /\ nfields d1 = len (row s) + Z.of_nat k /\
     file_lines d1 = file_lines d).
  { destruct (nfields d <? ex) eqn:L.
    - rewrite (K2 eq_refl). assert (L' := L). apply Z.ltb_lt in L'.
      destruct (space_caps (ex - nfields d) d ltac:(lia) C) as (C' & S1 & S2 & S3).
      rewrite pad_ok.
      + eexists. split; [reflexivity|]. split.
        { destruct C' as (Q1 & Q2 & Q3 & Q4). unfold caps.
          cbn [stream_cap words_cap lines_cap stream_len] in *. lia. }
        cbn [words cur lines line_start nfields file_lines make_stream_space]. rewrite H1.
        rewrite <- app_assoc. rewrite H5. repeat (split; [auto|]); auto.
      + cbn. congruence.
      + change (words_len (make_stream_space (ex - nfields d) d)) with (words_len d).
        rewrite <- (K2 eq_refl). lia.
      + change (stream_len (make_stream_space (ex - nfields d) d)) with (stream_len d).
        rewrite <- (K2 eq_refl). lia.
    - rewrite (K3 eq_refl). exists d. cbn [repeat]. rewrite app_nil_r. rewrite Z.add_0_r.
      repeat split; auto; try apply C. congruence. }
  destruct E as (d1 & -> & C1 & W & Cu & Li & St & Nf & Fl).
  set (d' := mkData _ _ _ _ _ _ _ _ _ _).
  assert (R' : rep d' (iexec1 EndLine s)).
  { unfold rep, d'. cbn [words cur lines line_start nfields file_lines iexec1 rows row field nline].
    rewrite pad_rows_snoc. fold k. rewrite index_snoc, concat_app. cbn [concat].
    rewrite !app_nil_r, !app_length, repeat_length.
    rewrite W, Cu, Li, St, Nf, Fl, F, H3, H4, H6, K1, Z.add_0_l.
    repeat split; auto.
    - f_equal. f_equal. f_equal. lia.
    - lia. }
  destruct (lines_len d' >=? lines_cap d'); auto.
Qed.

(** Events that occur only in the situations listed. *)
Fixpoint safe (evs : list event) (s : doc) : Prop :=
  match evs with
  | [] => True
  | e :: r => match e with EndLine => field s = [] | EndSkippedLine => row s = [] | _ => True end
              /\ safe r (iexec1 e s)
  end.
Lemma exec_rep evs d s : rep d s -> caps d -> safe evs s ->
  match exec evs d with
  | Ok d' => rep d' (iexec evs s) /\ caps d'
  | Failed d' => exists s', rep d' s'
  | Oob => True
  end.
Proof.
  revert d s. induction evs as [|e evs IH]; intros d s R C S; cbn [exec]; auto.
  cbn [safe] in S. destruct S as [S1 S2].
  assert (E : match exec1 e d with
              | Ok d' => rep d' (iexec1 e s) /\ caps d'
              | Failed d' => exists s', rep d' s' | Oob => True end).
  { destruct e; cbn [exec1].
    - pose proof (push_rep c d s R C) as H. destruct (push c d); eauto.
    - pose proof (end_field_rep d s R C) as H. destruct (end_field d); eauto.
    - pose proof (end_line_rep d s R C S1) as H. destruct (end_line d); eauto.
    - split; [|exact C]. destruct R as (H1 & H2 & H3 & H4 & H5 & H6).
      unfold rep. cbn. rewrite S1 in *. cbn in H5. repeat split; auto; lia.
    - split; [|exact C]. destruct R as (H1 & H2 & H3 & H4 & H5 & H6).
      unfold rep. cbn. repeat split; auto; lia. }
  destruct (exec1 e d) as [d1|d1|]; auto. destruct E as [R1 C1]. apply (IH d1 (iexec1 e s)); auto.
Qed.

(** ** What holds in each state *)
Section Machine.
Variable cfg : tokcfg.
Notation skip s := (skip_this_line cfg (nline s)).

Definition between (st : tstate) : bool :=
  match st with
  | START_RECORD | EAT_CRNL_NOP | EAT_LINE_COMMENT | WHITESPACE_LINE | START_FIELD_IN_SKIP_LINE
  | IN_FIELD_IN_SKIP_LINE | IN_QUOTED_FIELD_IN_SKIP_LINE | QUOTE_IN_QUOTED_FIELD_IN_SKIP_LINE => true
  | _ => false
  end.
Definition inv (st : tstate) (s : doc) : Prop :=
  (between st = true -> row s = [] /\ field s = []) /\
  match st with START_FIELD | EAT_CRNL | EAT_COMMENT | EAT_WHITESPACE => field s = [] | _ => True end /\
  (st = EAT_WHITESPACE -> delim_whitespace cfg = true /\ (row s = [] \/ skip s = false)) /\
  (delim_whitespace cfg = true ->
   match st with
   | START_FIELD | ESCAPED_CHAR | IN_FIELD | IN_QUOTED_FIELD | ESCAPE_IN_QUOTED_FIELD
   | QUOTE_IN_QUOTED_FIELD => skip s = false
   | _ => True
   end) /\
  (st = EAT_CRNL -> lineterminator cfg = 0) /\
  (st = WHITESPACE_LINE -> skip_empty_lines cfg = true).

Ltac crush :=
  repeat match goal with
  | |- context [if ?b then _ else _] => destruct b eqn:?
  end; cbn in *.

Definition good (s : doc) (r : reaction) : Prop :=
  let '(evs, st', mv) := r in
  safe evs s /\ inv st' (iexec evs s) /\ (mv = Stay -> st' = START_RECORD) /\
  (mv = Back -> skip_empty_lines cfg = true /\ delim_whitespace cfg = false).

Lemma carriage_default c : is_carriage cfg c = true -> lineterminator cfg = 0.
Proof. unfold is_carriage. intros H. apply andb_true_iff in H as [H _]. apply Z.eqb_eq; auto. Qed.

Ltac finish F R :=
  unfold good, inv; cbn; rewrite ?F, ?R; repeat (split; try tauto; try congruence; auto);
  intros; try discriminate; auto; try tauto.

Lemma start_field_good s c : field s = [] -> (delim_whitespace cfg = true -> skip s = false) ->
  good s (start_field cfg c).
Proof.
  intros F D. unfold start_field, go. pose proof (carriage_default c).
  crush; finish F F.
Qed.
Lemma start_record_good s c : row s = [] -> field s = [] -> good s (start_record cfg (skip s) c).
Proof.
  intros R F. unfold start_record, go. pose proof (carriage_default c).
  destruct (skip s) eqn:K.
  - crush; finish F R.
  - crush; try (apply start_field_good; auto; discriminate); finish F R.
    all: match goal with H : _ && _ = true |- _ => apply andb_true_iff in H as [? ?] end; auto.
Qed.
Lemma eat_whitespace_good s c : field s = [] -> delim_whitespace cfg = true ->
  (row s = [] \/ skip s = false) -> good s (eat_whitespace cfg (skip s) c).
Proof.
  intros F D S. unfold eat_whitespace, go. pose proof (carriage_default c).
  destruct (is_terminator cfg c) eqn:T; [finish F D|].
  destruct (is_carriage cfg c) eqn:Ca; [finish F D|].
  destruct (is_comment cfg c) eqn:Co; [finish F D|].
  destruct (isblank c) eqn:B; cbn [negb]; [finish F D|].
  destruct S as [R|S]; [apply start_record_good; auto|].
  rewrite S. unfold start_record. rewrite T, Ca, Co, B. cbn [andb].
  apply start_field_good; auto.
Qed.
Lemma react_good st s c : inv st s -> good s (react cfg (skip s) st c).
Proof.
  intros (I1 & I2 & I3 & I4 & I5 & I6). pose proof (carriage_default c) as CD.
  destruct st; cbn [react between] in *; unfold go;
    try (destruct (I1 eq_refl) as [R F]; clear I1);
    try (apply start_record_good; assumption);
    try (apply start_field_good; assumption);
    try (destruct (I3 eq_refl); apply eat_whitespace_good; assumption).
  all: try (crush; finish I2 I2; fail).
  all: try (crush; finish F R; fail).
  destruct (is_terminator cfg c); [finish F R|].
  destruct (is_carriage cfg c); [finish F R|].
  destruct (delim_whitespace cfg) eqn:D; cbn [negb].
  - apply eat_whitespace_good; auto.
  - destruct (_ && _); finish F R.
Qed.

Lemma start_record_moves k c : snd (start_record cfg k c) = Advance.
Proof. unfold start_record, start_field, go. crush; reflexivity. Qed.

(** The state START_RECORD never re-reads its character. *)
Lemma istep_start s c : istep cfg (START_RECORD, s) c =
  let '(evs, st', _) := react cfg (skip s) START_RECORD c in (st', iexec evs s).
Proof.
  unfold istep. cbn [fst snd react]. pose proof (start_record_moves (skip s) c) as M.
  destruct (start_record cfg (skip s) c) as [[evs st'] mv]. cbn in M. subst. auto.
Qed.

(** ** Running over characters *)
Lemma run_ideal (NB : no_back cfg) fuel : forall st d s before after, inv st s -> rep d s -> caps d ->
  match run cfg fuel st d before after with
  | Done st' d' => exists s', fold_left (istep cfg) after (st, s) = (st', s') /\ inv st' s' /\
                              rep d' s' /\ caps d'
  | Error d' => exists s', rep d' s'
  | Undefined | Looping => True
  end.
Proof.
  induction fuel as [|fuel IH]; intros st d s before after I R C; destruct after as [|c r]; cbn [run].
  - exists s. auto.
  - auto.
  - exists s. auto.
  - pose proof R as (_ & _ & _ & _ & _ & FL). rewrite FL.
    pose proof (react_good st s c I) as G.
    destruct (react cfg (skip s) st c) as [[evs st'] mv] eqn:ER. cbn [good] in G.
    destruct G as (S & I' & GS & GB).
    pose proof (exec_rep evs d s R C S) as E. destruct (exec evs d) as [d'|d'|]; auto.
    destruct E as [R' C'].
    assert (ES : istep cfg (st, s) c =
      match mv with
      | Stay => let '(evs2, st2, _) := react cfg (skip (iexec evs s)) st' c in
                (st2, iexec evs2 (iexec evs s))
      | _ => (st', iexec evs s)
      end).
    { unfold istep. cbn [fst snd]. rewrite ER. auto. }
    destruct mv.
    + specialize (IH st' d' (iexec evs s) (c :: before) r I' R' C').
      cbn [fold_left]. rewrite ES. exact IH.
    + specialize (IH st' d' (iexec evs s) before (c :: r) I' R' C').
      cbn [fold_left] in *. rewrite ES. rewrite (GS eq_refl) in *.
      rewrite istep_start in IH. exact IH.
    + destruct (GB eq_refl) as [B1 B2]. destruct NB; congruence.
Qed.

(** ** The end of the file *)
Lemma eof_ideal st d s : inv st s -> rep d s -> caps d ->
  match handle_eof st d with
  | Done _ d' => exists s', ieof (st, s) = Some (rows s') /\ rep d' s' /\ caps d' /\ row s' = []
  | Error d' => exists s', rep d' s'
  | Undefined | Looping => True
  end.
Proof.
  intros I R C. destruct I as (I1 & I2 & _).
  assert (E : forall evs, safe evs s -> row (iexec evs s) = [] ->
     match (match exec evs d with Ok d => Done st d | Failed d => Error d | Oob => Undefined end) with
     | Done _ d' => exists s', Some (rows (iexec evs s)) = Some (rows s') /\ rep d' s' /\ caps d' /\ row s' = []
     | Error d' => exists s', rep d' s'
     | _ => True end).
  { intros evs S L. pose proof (exec_rep evs d s R C S) as X. destruct (exec evs d); auto.
    destruct X. eauto 10. }
  assert (K : between st = true -> exists s', rows (iexec [EndSkippedLine] s) = rows s' /\
     rep (end_skipped_line d) s' /\ caps (end_skipped_line d) /\ row s' = []).
  { intros B. destruct (I1 B) as [A1 A2].
    pose proof (exec_rep [EndSkippedLine] d s R C) as X. cbn [safe exec exec1] in X.
    destruct X as [X1 X2]; [auto|]. eexists. split; [reflexivity|]. split; [exact X1|]. auto. }
  destruct st; cbn [handle_eof ieof fst snd between] in *;
    try (destruct (K eq_refl) as (s' & K1 & K2); exists s'; rewrite <- K1; cbn; auto; fail);
    try (destruct (I1 eq_refl) as [A1 A2]; exists s; split; [reflexivity|]; auto; fail);
    try (exists s; exact R).
  all: apply E; cbn; auto.
Qed.
End Machine.

(** ** The whole file *)
Lemma drop_bom_id l : (forall r, l <> bom ++ r) -> drop_bom l = l.
Proof.
  intros H. destruct l as [|a [|b [|c r]]]; auto. cbn [drop_bom].
  destruct (a =? 239) eqn:A; auto. destruct (b =? 187) eqn:B; auto. destruct (c =? 191) eqn:D; auto.
  apply Z.eqb_eq in A, B, D. subst. destruct (H r). auto.
Qed.
Lemma drop_bom_bom l : drop_bom (bom ++ l) = l.
Proof. reflexivity. Qed.
Lemma unmarked_cons c r : unmarked (c :: r) -> (forall x, c <> bom ++ x) /\ unmarked r.
Proof.
  intros H. split.
  - intros x. apply H. left. auto.
  - intros y x Hy. apply H. right. auto.
Qed.

(** What holds between two chunks. *)
Definition ready cfg st d s : Prop := inv cfg st s /\ rep d s /\ caps d.

Lemma bytes_ideal cfg fuel st d s chunk l (NB : no_back cfg) : ready cfg st d s ->
  (if file_lines d =? 0 then drop_bom chunk else chunk) = l ->
  match tokenize_bytes cfg fuel st d chunk with
  | Done st' d' => exists s', fold_left (istep cfg) l (st, s) = (st', s') /\ ready cfg st' d' s'
  | Error d' => exists s', rep d' s'
  | Undefined | Looping => True
  end.
Proof.
  intros (I & R & C) E. unfold tokenize_bytes. cbv zeta.
  destruct (space_caps (len chunk) d ltac:(lia) C) as (C' & _).
  change (file_lines (make_stream_space (len chunk) d)) with (file_lines d). rewrite E.
  exact (run_ideal cfg NB fuel st (make_stream_space (len chunk) d) s [] l I (rep_space _ _ _ R) C').
Qed.

Lemma tokenize_ideal cfg fuel (NB : no_back cfg) chunks : forall st d s, ready cfg st d s ->
  unmarked chunks ->
  match tokenize cfg fuel st d chunks with
  | Done _ d' => exists s', ieof (fold_left (istep cfg) (concat chunks) (st, s)) = Some (rows s') /\
                            rep d' s' /\ row s' = []
  | Error d' => exists s', rep d' s'
  | Undefined | Looping => True
  end.
Proof.
  induction chunks as [|c r IH]; intros st d s Rd NBom; cbn [tokenize concat].
  - destruct Rd as (I & R & C). pose proof (eof_ideal cfg st d s I R C) as X.
    destruct (handle_eof st d); auto. destruct X as (s' & X1 & X2 & X3 & X4). exists s'. auto.
  - apply unmarked_cons in NBom as [N1 N2].
    assert (E : (if file_lines d =? 0 then drop_bom c else c) = c).
    { destruct (_ =? _); auto. apply drop_bom_id; auto. }
    pose proof (bytes_ideal cfg fuel st d s c c NB Rd E) as X.
    destruct (tokenize_bytes cfg fuel st d c) as [st' d'|d'| |]; auto.
    destruct X as (s' & X1 & X2). rewrite fold_left_app, X1. apply IH; auto.
Qed.

Lemma ready_init cfg : ready cfg START_RECORD init_data (mkDoc [] [] [] 0).
Proof.
  split; [|split].
  - unfold inv. cbn. repeat split; auto; intros; discriminate.
  - unfold rep. cbn. repeat split; auto.
  - unfold caps. cbn. unfold max_words_cap, stream_init. lia.
Qed.

Lemma all_ideal cfg fuel b chunks : no_back cfg -> unmarked chunks ->
  match tokenize_all cfg fuel (with_bom b chunks) with
  | Done _ d' => exists s', ideal cfg (concat chunks) = Some (rows s') /\ rep d' s' /\ row s' = []
  | Error d' => exists s', rep d' s'
  | Undefined | Looping => True
  end.
Proof.
  intros NB NBom. unfold tokenize_all, ideal. pose proof (ready_init cfg) as RI.
  destruct b; [|destruct chunks; apply (tokenize_ideal cfg fuel NB _ _ _ _ RI NBom)].
  destruct chunks as [|c r]; [exact (tokenize_ideal cfg fuel NB [] _ _ _ RI NBom)|].
  cbn [with_bom tokenize]. cbn [concat] in *. apply unmarked_cons in NBom as [N1 N2].
  assert (E : (if file_lines init_data =? 0 then drop_bom (bom ++ c) else bom ++ c) = c) by reflexivity.
  pose proof (bytes_ideal cfg fuel _ _ _ _ c NB RI E) as X.
  destruct (tokenize_bytes cfg fuel _ _ _) as [st' d'|d'| |]; auto.
  destruct X as (s' & X1 & X2). rewrite fold_left_app, X1. apply tokenize_ideal; auto.
Qed.

Lemma rep_table d s : rep d s -> table d = pad_rows 0 (rows s).
Proof.
  intros (H1 & _ & H3 & _). unfold table. rewrite H1, H3.
  exact (table_of_index (pad_rows 0 (rows s)) (row s) 0 [] eq_refl).
Qed.
Lemma rep_words d s : rep d s -> row s = [] -> words d = concat (table d).
Proof. intros R E. rewrite (rep_table d s R). destruct R as (H1 & _). rewrite H1, E. apply app_nil_r. Qed.

(** Theorem A *)
Lemma tokenizer_reads fuel cfg b chunks st d : no_back cfg -> unmarked chunks ->
  tokenize_all cfg fuel (with_bom b chunks) = Done st d ->
  exists rs, ideal cfg (concat chunks) = Some rs /\ table d = pad_rows 0 rs /\ words d = concat (table d).
Proof.
  intros NB N E. pose proof (all_ideal cfg fuel b chunks NB N) as X. rewrite E in X.
  destruct X as (s' & X1 & X2 & X3). exists (rows s'). split; [auto|]. split.
  - apply rep_table; auto.
  - eapply rep_words; eauto.
Qed.
