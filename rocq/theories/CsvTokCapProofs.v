(** Proofs about the CSV tokenizer: the space reserved for a chunk is enough. *)
From Coq Require Import ZArith List Bool Lia.
From Verif Require Import Base CsvTokModel CsvTokSpec CsvTokProofs.
Import ListNotations.
Local Open Scope Z_scope.

(** ** What events use *)
Fixpoint n_stream (evs : list event) : Z :=
  match evs with [] => 0 | (Push _ | EndField) :: r => 1 + n_stream r | _ :: r => n_stream r end.
Fixpoint n_words (evs : list event) : Z :=
  match evs with [] => 0 | EndField :: r => 1 + n_words r | _ :: r => n_words r end.
Fixpoint n_lines (evs : list event) : Z :=
  match evs with [] => 0 | EndLine :: r => 1 + n_lines r | _ :: r => n_lines r end.
Lemma n_nonneg evs : 0 <= n_stream evs /\ 0 <= n_words evs /\ 0 <= n_lines evs.
Proof. induction evs as [|[] r IH]; cbn [n_stream n_words n_lines]; lia. Qed.

Lemma iexec_rows evs s : exists more, rows (iexec evs s) = rows s ++ more.
Proof.
  revert s. induction evs as [|e evs IH]; intros s.
  - exists []. cbn. rewrite app_nil_r. auto.
  - destruct (IH (iexec1 e s)) as [m E]. cbn [iexec fold_left].
    fold (iexec evs (iexec1 e s)). rewrite E.
    destruct e; cbn [iexec1 rows]; eauto. exists (row s :: m). rewrite <- app_assoc. auto.
Qed.

Definition room (d : data) (a b c : Z) : Prop :=
  stream_len d + a < stream_cap d /\ words_len d + b < words_cap d /\ lines_len d + c < lines_cap d.

Lemma exec_room evs : forall d s a b c, rep d s -> caps d -> safe evs s ->
  nondecreasing 0 (rows (iexec evs s)) -> -1 <= a -> -1 <= b -> 0 <= c ->
  room d (a + n_stream evs) (b + n_words evs) (c + n_lines evs) ->
  exists d', exec evs d = Ok d' /\ rep d' (iexec evs s) /\ caps d' /\ room d' a b c.
Proof.
  induction evs as [|e evs IH]; intros d s a b c R C S M Ha Hb Hc Rm.
  - exists d. cbn [n_stream n_words n_lines] in Rm. rewrite !Z.add_0_r in Rm. cbn. auto.
  - cbn [safe] in S. destruct S as [S1 S2]. cbn [exec].
    pose proof (n_nonneg evs) as (N1 & N2 & N3).
    pose proof (exec_rep [e] d s R C (conj S1 I)) as X.
    cbn [exec iexec fold_left] in X.
    assert (Q : exists d1, exec1 e d = Ok d1 /\ room d1 (a + n_stream evs) (b + n_words evs) (c + n_lines evs)).
    { destruct Rm as (R1 & R2 & R3).
      destruct e; cbn [n_stream n_words n_lines exec1] in *.
      - unfold push.
        replace (stream_len d >=? stream_cap d) with false by (symmetry; rewrite Z.geb_leb; apply Z.leb_gt; lia).
        eexists. split; [reflexivity|]. unfold room.
        cbn [stream_len stream_cap words_cap lines_cap words lines]. unfold words_len, lines_len in *.
        cbn [words lines]. lia.
      - unfold end_field.
        replace (words_len d >=? words_cap d) with false by (symmetry; rewrite Z.geb_leb; apply Z.leb_gt; lia).
        replace (stream_len d >=? stream_cap d) with false by (symmetry; rewrite Z.geb_leb; apply Z.leb_gt; lia).
        eexists. split; [reflexivity|]. unfold room. unfold words_len, lines_len in *.
        cbn [stream_len stream_cap words_cap lines_cap words lines]. rewrite app_length. cbn [length]. lia.
      - unfold end_line. pose proof (rep_last d s R) as EL. rewrite EL.
        destruct R as (_ & _ & _ & _ & H5 & _).
        assert (NP : nfields d <? match rows s with [] => -1 | _ => Z.of_nat (last_len 0 (pad_rows 0 (rows s))) end = false).
        { apply Z.ltb_ge. rewrite H5. destruct (rows s) eqn:E; [lia|]. rewrite <- E.
          destruct (iexec_rows evs (iexec1 EndLine s)) as [m Em].
          cbn [iexec fold_left] in M. fold (iexec evs (iexec1 EndLine s)) in M. rewrite Em in M.
          cbn [iexec1 rows] in M. apply nondecreasing_app in M. pose proof (nondecreasing_last _ _ _ M).
          apply nondecreasing_app in M. rewrite pad_rows_id by auto. lia. }
        rewrite NP. set (d' := mkData _ _ _ _ _ _ _ _ _ _).
        assert (L : lines_len d' = lines_len d + 1).
        { unfold lines_len, d'. cbn [lines]. rewrite app_length. cbn. lia. }
        change (lines_cap d') with (lines_cap d). rewrite L.
        replace (lines_len d + 1 >=? lines_cap d) with false by (symmetry; rewrite Z.geb_leb; apply Z.leb_gt; lia).
        exists d'. split; [reflexivity|]. unfold room. rewrite L. change (words_len d') with (words_len d).
        cbn [d' stream_len stream_cap words_cap lines_cap]. lia.
      - eexists. split; [reflexivity|]. unfold room. cbn. unfold words_len, lines_len in *. cbn in *. lia.
      - eexists. split; [reflexivity|]. unfold room. cbn. unfold words_len, lines_len in *. cbn in *. lia. }
    destruct Q as (d1 & E1 & Rm1). rewrite E1 in *. destruct X as [X1 X2].
    destruct (IH d1 (iexec1 e s) a b c X1 X2 S2 M Ha Hb Hc Rm1) as (d' & D1 & D2). exists d'. auto.
Qed.

Section Machine.
Variable cfg : tokcfg.
Notation skip s := (skip_this_line cfg (nline s)).

Ltac crush :=
  repeat match goal with |- context [if ?b then _ else _] => destruct b eqn:? end; cbn in *.

Definition cheap (r : reaction) : Prop :=
  let '(evs, _, mv) := r in
  n_stream evs <= 1 /\ n_words evs <= 1 /\ n_lines evs <= 1 /\
  (mv = Stay -> n_stream evs = 0 /\ n_words evs = 0).
Lemma start_field_cheap c : cheap (start_field cfg c).
Proof. unfold start_field, go. crush; repeat split; try lia; discriminate. Qed.
Lemma start_record_cheap k c : cheap (start_record cfg k c).
Proof.
  unfold start_record, go. crush; try apply start_field_cheap; repeat split; try lia; discriminate.
Qed.
Lemma eat_whitespace_cheap k c : cheap (eat_whitespace cfg k c).
Proof.
  unfold eat_whitespace, go. crush; try apply start_record_cheap; repeat split; try lia; discriminate.
Qed.
Lemma react_cheap k st c : cheap (react cfg k st c).
Proof.
  destruct st; cbn [react]; unfold go; try apply start_field_cheap; try apply start_record_cheap;
    try apply eat_whitespace_cheap.
  all: try (crush; repeat split; try lia; discriminate).
  - crush; try apply eat_whitespace_cheap; repeat split; try lia; discriminate.
Qed.
(** A line is closed at most once for each character, even if it is looked at twice. *)
Lemma stay_cheap k k2 st s c evs st' : inv cfg st s -> react cfg k st c = (evs, st', Stay) ->
  n_lines evs + n_lines (fst (fst (start_record cfg k2 c))) <= 1.
Proof.
  intros (_ & _ & _ & _ & I5 & _) E.
  assert (SF : forall c, snd (start_field cfg c) <> Stay).
  { intros c'. unfold start_field, go. crush; discriminate. }
  assert (SR : forall k c, snd (start_record cfg k c) <> Stay).
  { intros k' c'. rewrite start_record_moves. discriminate. }
  assert (EW : forall k c, snd (eat_whitespace cfg k c) <> Stay).
  { intros k' c'. unfold eat_whitespace, go. crush; try apply SR; discriminate. }
  pose proof (start_record_cheap k2 c) as SC.
  destruct (start_record cfg k2 c) as [[e2 s2] m2] eqn:E2. cbn [cheap fst snd] in *.
  destruct st; cbn [react] in E.
  all: try (exfalso; first [apply (SR k c); rewrite E; reflexivity | apply (SF c); rewrite E; reflexivity
                           | apply (EW k c); rewrite E; reflexivity]).
  all: try (unfold go in E; repeat match type of E with context [if ?b then _ else _] => destruct b eqn:? end;
            try discriminate E; injection E as <- <-; cbn [n_lines]; lia).
  - (* EAT_CRNL *)
    destruct (c =? 10) eqn:C10; [discriminate|].
    destruct (is_delimiter cfg c); [destruct (delim_whitespace cfg); discriminate|].
    injection E as <- <-. cbn [n_lines].
    assert (T : is_terminator cfg c = false).
    { unfold is_terminator. rewrite (I5 eq_refl). exact C10. }
    assert (Z : n_lines e2 = 0); [|lia].
    revert E2. unfold start_record, start_field, go. rewrite T.
    repeat match goal with |- context [if ?b then _ else _] => destruct b end;
      intros E2; injection E2 as <- _ _; reflexivity.
  - (* WHITESPACE_LINE *)
    destruct (is_terminator cfg c); [discriminate|]. destruct (is_carriage cfg c); [discriminate|].
    destruct (negb _); [destruct (_ && _); discriminate|].
    exfalso. apply (EW k c). rewrite E. reflexivity.
Qed.

Lemma fold_rows l : forall x, exists more, rows (snd (fold_left (istep cfg) l x)) = rows (snd x) ++ more.
Proof.
  induction l as [|c l IH]; intros x; cbn [fold_left].
  - exists []. rewrite app_nil_r. auto.
  - destruct (IH (istep cfg x c)) as [m E]. rewrite E.
    assert (Q : exists m2, rows (snd (istep cfg x c)) = rows (snd x) ++ m2).
    { unfold istep. destruct (react _ _ _ _) as [[evs st'] mv]. cbv zeta.
      destruct (iexec_rows evs (snd x)) as [m1 E1].
      destruct mv; cbn [snd]; eauto.
      destruct (react _ _ _ _) as [[evs2 st2] mv2]. cbn [snd].
      destruct (iexec_rows evs2 (iexec evs (snd x))) as [m2 E2]. exists (m1 ++ m2).
      rewrite E2, E1, app_assoc. auto. }
    destruct Q as [m2 Q]. exists (m2 ++ m). rewrite Q, app_assoc. auto.
Qed.

Lemma run_room (NB : no_back cfg) after : forall fuel st d s before,
  ready cfg st d s -> nondecreasing 0 (rows (snd (fold_left (istep cfg) after (st, s)))) ->
  room d (2 * len after) (len after) (1 + len after) -> (2 * length after <= fuel)%nat ->
  exists st' d', run cfg fuel st d before after = Done st' d' /\ room d' 0 0 1.
Proof.
  induction after as [|c r IH]; intros fuel st d s before Rd M Rm Fu.
  - exists st, d. destruct fuel; cbn [run]; auto.
  - destruct fuel as [|fuel]; [cbn [length] in Fu; lia|].
    destruct Rd as (I & R & C). cbn [run].
    pose proof R as (_ & _ & _ & _ & _ & FL). rewrite FL.
    pose proof (react_good cfg st s c I) as G. pose proof (react_cheap (skip s) st c) as Ch.
    destruct (react cfg (skip s) st c) as [[evs st'] mv] eqn:ER. cbn [good cheap] in G, Ch.
    destruct G as (S & I' & GS & GB). destruct Ch as (Ch1 & Ch2 & Ch3 & Ch4).
    destruct (fold_rows r (istep cfg (st, s) c)) as [more EM].
    cbn [fold_left] in M.
    assert (ES : istep cfg (st, s) c =
      match mv with
      | Stay => let '(evs2, st2, _) := react cfg (skip (iexec evs s)) st' c in
                (st2, iexec evs2 (iexec evs s))
      | _ => (st', iexec evs s)
      end).
    { unfold istep. cbn [fst snd]. rewrite ER. auto. }
    replace (len (c :: r)) with (1 + len r) in Rm by (cbn [length]; lia).
    pose proof (n_nonneg evs) as (P1 & P2 & P3).
    cbn [length] in Fu.
    destruct mv.
    + (* Advance *)
      assert (M1 : nondecreasing 0 (rows (iexec evs s))).
      { rewrite EM, ES in M. cbn [snd] in M. eapply nondecreasing_app; eauto. }
      destruct (exec_room evs d s (2 * len r) (len r) (1 + len r) R C S M1) as (d1 & D1 & D2 & D3 & D4);
        try lia.
      { destruct Rm as (Q1 & Q2 & Q3). unfold room. lia. }
      rewrite D1. apply (IH fuel st' d1 (iexec evs s)); auto; try lia.
      * split; auto.
      * rewrite <- ES. auto.
    + (* Stay *)
      rewrite (GS eq_refl) in *. destruct (Ch4 eq_refl) as [Ch5 Ch6].
      pose proof (start_record_cheap (skip (iexec evs s)) c) as Ch.
      pose proof (stay_cheap (skip s) (skip (iexec evs s)) st s c evs _ I ER) as SL.
      pose proof (react_good cfg START_RECORD (iexec evs s) c I') as G.
      cbn [react] in ES, G.
      pose proof (start_record_moves cfg (skip (iexec evs s)) c) as Mv.
      destruct (start_record cfg (skip (iexec evs s)) c) as [[evs2 st2] mv2] eqn:ER2.
      cbn [fst snd] in SL, Mv. cbn [cheap good] in Ch, G. subst mv2.
      destruct Ch as (H1 & H2 & H3 & _). destruct G as (S2 & I2 & _).
      pose proof (n_nonneg evs2) as (N1 & N2 & N3).
      assert (M2 : nondecreasing 0 (rows (iexec evs2 (iexec evs s)))).
      { rewrite EM, ES in M. cbn [snd] in M. eapply nondecreasing_app; eauto. }
      assert (M1 : nondecreasing 0 (rows (iexec evs s))).
      { destruct (iexec_rows evs2 (iexec evs s)) as [m2 E2]. rewrite E2 in M2.
        eapply nondecreasing_app; eauto. }
      destruct (exec_room evs d s (2 * len r + n_stream evs2) (len r + n_words evs2)
                  (1 + len r + n_lines evs2) R C S M1) as (d1 & D1 & D2 & D3 & D4); try lia.
      { destruct Rm as (Q1 & Q2 & Q3). unfold room. lia. }
      rewrite D1. destruct fuel as [|fuel]; [lia|]. cbn [run].
      pose proof D2 as (_ & _ & _ & _ & _ & FL2). rewrite FL2. cbn [react]. rewrite ER2.
      destruct (exec_room evs2 d1 (iexec evs s) (2 * len r) (len r) (1 + len r) D2 D3 S2 M2)
        as (d2 & F1 & F2 & F3 & F4); try lia.
      { exact D4. }
      rewrite F1. apply (IH fuel st2 d2 (iexec evs2 (iexec evs s))); auto; try lia.
      * split; auto.
      * rewrite <- ES. auto.
    + destruct (GB eq_refl) as [B1 B2]. destruct NB; congruence.
Qed.
Lemma eof_room st d s rs : ready cfg st d s -> ieof (st, s) = Some rs -> nondecreasing 0 rs ->
  room d 0 0 1 -> exists st' d', handle_eof st d = Done st' d'.
Proof.
  intros ((I1 & I2 & _) & R & C) E M Rm.
  assert (X : forall evs, safe evs s -> rows (iexec evs s) = rs ->
     n_stream evs <= 1 -> n_words evs <= 1 -> n_lines evs <= 1 ->
     exists st' d', (match exec evs d with Ok d => Done st d | Failed d => Error d | Oob => Undefined end) = Done st' d').
  { intros evs S N0 N1 N2 N3. destruct Rm as (Q1 & Q2 & Q3). rewrite <- N0 in M.
    destruct (exec_room evs d s (-1) (-1) 0 R C S M) as (d' & D & _); try lia.
    - unfold room. lia.
    - rewrite D. eauto. }
  destruct st; cbn [ieof handle_eof fst snd] in *; eauto; try discriminate;
    injection E as E; apply X; cbn [safe n_stream n_words n_lines iexec1 field]; auto; lia.
Qed.
End Machine.

(** ** The whole file *)
Lemma ideal_prefix cfg l x rs : ieof (fold_left (istep cfg) l x) = Some rs ->
  nondecreasing 0 rs -> nondecreasing 0 (rows (snd (fold_left (istep cfg) l x))).
Proof.
  destruct (fold_left (istep cfg) l x) as [st s]. cbn [snd].
  intros E M. assert (Q : exists evs, rs = rows (iexec evs s)).
  { destruct st; cbn [ieof fst snd] in E; try discriminate; injection E as <-;
      first [exists []; reflexivity | exists [EndLine]; reflexivity | exists [EndField; EndLine]; reflexivity]. }
  destruct Q as [evs ->]. destruct (iexec_rows evs s) as [m Em]. rewrite Em in M.
  eapply nondecreasing_app; eauto.
Qed.

Lemma bytes_room cfg fuel st d s chunk l (NB : no_back cfg) : ready cfg st d s ->
  (if file_lines d =? 0 then drop_bom chunk else chunk) = l -> (length l <= length chunk)%nat ->
  nondecreasing 0 (rows (snd (fold_left (istep cfg) l (st, s)))) -> (2 * length chunk <= fuel)%nat ->
  exists st' d', tokenize_bytes cfg fuel st d chunk = Done st' d' /\ room d' 0 0 1.
Proof.
  intros (I & R & C) E Le M Fu. unfold tokenize_bytes. cbv zeta.
  destruct (space_caps (len chunk) d ltac:(lia) C) as (C' & S1 & S2 & S3).
  change (file_lines (make_stream_space (len chunk) d)) with (file_lines d). rewrite E.
  apply (run_room cfg NB l fuel st _ s []); auto.
  - split; [auto|]. split; [apply rep_space|]; auto.
  - unfold room. change (stream_len (make_stream_space (len chunk) d)) with (stream_len d).
    change (words_len (make_stream_space (len chunk) d)) with (words_len d).
    change (lines_len (make_stream_space (len chunk) d)) with (lines_len d). lia.
  - lia.
Qed.

Lemma tokenize_room cfg fuel (NB : no_back cfg) rs chunks : forall st d s, ready cfg st d s ->
  room d 0 0 1 -> unmarked chunks -> enough fuel chunks ->
  ieof (fold_left (istep cfg) (concat chunks) (st, s)) = Some rs -> nondecreasing 0 rs ->
  exists st' d', tokenize cfg fuel st d chunks = Done st' d'.
Proof.
  induction chunks as [|c r IH]; intros st d s Rd Rm NBom En E M; cbn [tokenize concat].
  - cbn [concat fold_left] in E. eapply eof_room; eauto.
  - apply unmarked_cons in NBom as [N1 N2].
    assert (Eb : (if file_lines d =? 0 then drop_bom c else c) = c).
    { destruct (_ =? _); auto. apply drop_bom_id; auto. }
    assert (M1 : nondecreasing 0 (rows (snd (fold_left (istep cfg) c (st, s))))).
    { pose proof (ideal_prefix _ _ _ _ E M) as Q. cbn [concat] in Q. rewrite fold_left_app in Q.
      destruct (fold_rows cfg (concat r) (fold_left (istep cfg) c (st, s))) as [m Em].
      rewrite Em in Q. eapply nondecreasing_app; eauto. }
    destruct (bytes_room cfg fuel st d s c c NB Rd Eb (le_n _) M1) as (st1 & d1 & T & Rm1).
    { apply En. left. auto. }
    rewrite T. pose proof (bytes_ideal cfg fuel st d s c c NB Rd Eb) as X. rewrite T in X.
    destruct X as (s' & X1 & X2). cbn [concat] in E. rewrite fold_left_app, X1 in E.
    apply (IH st1 d1 s'); auto. intros x Hx. apply En. right. auto.
Qed.

(** Theorem B *)
Lemma tokenizer_done cfg fuel b chunks rs : no_back cfg -> unmarked chunks ->
  enough fuel (with_bom b chunks) -> ideal cfg (concat chunks) = Some rs -> nondecreasing 0 rs ->
  exists st d, tokenize_all cfg fuel (with_bom b chunks) = Done st d.
Proof.
  intros NB NBom En E M. unfold tokenize_all, ideal in *. pose proof (ready_init cfg) as RI.
  assert (Rm : room init_data 0 0 1).
  { unfold room, init_data, words_len, lines_len, max_words_cap, stream_init. cbn. lia. }
  destruct b; [|destruct chunks; eapply (tokenize_room cfg fuel NB rs); eauto].
  destruct chunks as [|c r]; [eapply (tokenize_room cfg fuel NB rs []); eauto|].
  cbn [with_bom tokenize] in *. cbn [concat] in *. apply unmarked_cons in NBom as [N1 N2].
  assert (Eb : (if file_lines init_data =? 0 then drop_bom (bom ++ c) else bom ++ c) = c) by reflexivity.
  assert (M1 : nondecreasing 0 (rows (snd (fold_left (istep cfg) c (START_RECORD, mkDoc [] [] [] 0))))).
  { pose proof (ideal_prefix _ _ _ _ E M) as Q. rewrite fold_left_app in Q.
    destruct (fold_rows cfg (concat r) (fold_left (istep cfg) c (START_RECORD, mkDoc [] [] [] 0))) as [m Em].
    rewrite Em in Q. eapply nondecreasing_app; eauto. }
  destruct (bytes_room cfg fuel _ _ _ (bom ++ c) c NB RI Eb) as (st1 & d1 & T & Rm1); auto.
  { rewrite app_length. lia. }
  { apply En. left. auto. }
  rewrite T. pose proof (bytes_ideal cfg fuel _ _ _ (bom ++ c) c NB RI Eb) as X. rewrite T in X.
  destruct X as (s' & X1 & X2). rewrite fold_left_app, X1 in E.
  apply (tokenize_room cfg fuel NB rs r st1 d1 s'); auto. intros x Hx. apply En. right. auto.
Qed.
