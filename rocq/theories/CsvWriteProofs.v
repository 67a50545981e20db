(** Proofs about the CSV tokenizer: it reads back written tables. *)
From Coq Require Import ZArith List Bool Lia.
From Verif Require Import Base CsvTokModel CsvTokSpec.
Import ListNotations.
Local Open Scope Z_scope.

Section Writer.
Variable cfg : tokcfg.
Hypothesis W : writable cfg.
Let q := quotechar cfg.
Let dl := delimiter cfg.

Lemma distinct : q <> dl /\
  (escapechar cfg <> 0 -> escapechar cfg <> q /\ escapechar cfg <> dl) /\
  (commentchar cfg <> 0 -> commentchar cfg <> q /\ commentchar cfg <> dl) /\
  (lineterminator cfg = 0 -> q <> 10 /\ q <> 13 /\ dl <> 10 /\ dl <> 13) /\
  (lineterminator cfg <> 0 -> q <> lineterminator cfg /\ dl <> lineterminator cfg).
Proof.
  destruct W as (N & _). unfold special_chars in N. fold q dl in N.
  inversion N as [|a l N1 N2]. inversion N2 as [|b k N3 N4]. subst. clear N N2 N4.
  cbn [In] in N1. rewrite !in_app_iff in *.
  destruct (Z.eqb_spec (escapechar cfg) 0), (Z.eqb_spec (commentchar cfg) 0),
    (Z.eqb_spec (lineterminator cfg) 0); cbn [In] in *; intuition congruence.
Qed.

Ltac tests :=
  unfold is_terminator, is_carriage, is_quote, is_comment, is_escape, is_delimiter, is_skippable;
  fold q; fold dl;
  destruct W as (_ & W1 & W2 & _ & _ & W5); rewrite ?W1;
  destruct distinct as (D1 & D2 & D3 & D4 & D5).
Ltac decide_eqs :=
  try (destruct (Z.eqb_spec (lineterminator cfg) 0); cbn [negb andb orb]);
  repeat match goal with
  | |- context [?a =? ?b] => destruct (Z.eqb_spec a b); cbn [negb andb orb]
  end; auto; try congruence; intuition congruence.

Lemma quote_tests : is_terminator cfg q = false /\ is_carriage cfg q = false /\ is_comment cfg q = false /\
  is_escape cfg q = false /\ is_delimiter cfg q = false /\ is_quote cfg q = true.
Proof. tests. repeat apply conj; decide_eqs. Qed.
Lemma delim_tests : is_terminator cfg dl = false /\ is_carriage cfg dl = false /\ is_comment cfg dl = false /\
  is_escape cfg dl = false /\ is_delimiter cfg dl = true /\ is_quote cfg dl = false /\ is_skippable cfg dl = false.
Proof.
  tests. repeat apply conj; try decide_eqs.
  destruct (skipinitialspace cfg) eqn:S; rewrite ?andb_false_r; auto.
  destruct (Z.eqb_spec dl 32); auto. destruct (W5 eq_refl). left. auto.
Qed.
Lemma plain_tests c : ~ In c (special_chars cfg) ->
  is_terminator cfg c = false /\ is_carriage cfg c = false /\ is_comment cfg c = false /\
  is_escape cfg c = false /\ is_delimiter cfg c = false /\ is_quote cfg c = false.
Proof.
  intros H. unfold special_chars in H. fold q dl in H. cbn [In] in H. rewrite !in_app_iff in H. tests.
  destruct (Z.eqb_spec (escapechar cfg) 0), (Z.eqb_spec (commentchar cfg) 0),
    (Z.eqb_spec (lineterminator cfg) 0); cbn [In negb andb orb] in *; repeat apply conj; decide_eqs.
Qed.
Lemma cr_tests : lineterminator cfg = 0 -> is_terminator cfg 13 = false /\ is_carriage cfg 13 = true /\
  is_delimiter cfg 13 = false /\ is_quote cfg 13 = false.
Proof.
  intros L. tests. destruct (D4 L) as (E1 & E2 & E3 & E4). rewrite L.
  repeat split; try reflexivity.
  - replace (13 =? dl) with false by (symmetry; apply Z.eqb_neq; congruence). reflexivity.
  - apply Z.eqb_neq. congruence.
Qed.
Definition term : Z := if lineterminator cfg =? 0 then 10 else lineterminator cfg.
Lemma term_tests : is_terminator cfg term = true /\ is_delimiter cfg term = false /\ is_quote cfg term = false.
Proof.
  unfold term. tests. destruct (Z.eqb_spec (lineterminator cfg) 0); repeat apply conj; decide_eqs.
Qed.
Lemma no_skip k : 0 <= k -> skip_this_line cfg k = false.
Proof.
  intros H. destruct W as (_ & _ & _ & W3 & W4 & _). unfold skip_this_line. rewrite W4. cbn [existsb].
  destruct (Z.leb_spec k (skip_first cfg)); auto; lia.
Qed.
Lemma w_plain_ws : delim_whitespace cfg = false /\ skip_empty_lines cfg = false.
Proof. destruct W as (_ & W1 & W2 & _). auto. Qed.

Ltac step :=
  unfold istep; cbn [fst snd nline]; try rewrite no_skip by assumption; cbn [react start_record].

(** ** Inside quotes *)
Lemma quoted_reads f t : quoted_text cfg f t -> forall R r g n, 0 <= n ->
  fold_left (istep cfg) t (IN_QUOTED_FIELD, mkDoc R r g n) = (IN_QUOTED_FIELD, mkDoc R r (g ++ f) n).
Proof.
  destruct quote_tests as (_ & _ & _ & Q4 & _ & Q6).
  induction 1 as [|c f t H1 H2 H IH|f t D H IH|c f t H1 H IH]; intros R r g n Hn; cbn [fold_left].
  - rewrite app_nil_r. auto.
  - assert (Ec : is_escape cfg c = false).
    { unfold is_escape. destruct (Z.eqb_spec (escapechar cfg) 0); auto. apply Z.eqb_neq. auto. }
    assert (Qc : is_quote cfg c = false) by (apply Z.eqb_neq; auto).
    replace (istep cfg (IN_QUOTED_FIELD, mkDoc R r g n) c)
      with (IN_QUOTED_FIELD, mkDoc R r (g ++ [c]) n).
    + rewrite IH, <- app_assoc by auto. auto.
    + step. rewrite Ec, Qc. reflexivity.
  - replace (istep cfg (IN_QUOTED_FIELD, mkDoc R r g n) (quotechar cfg))
      with (QUOTE_IN_QUOTED_FIELD, mkDoc R r g n) by (step; fold q; rewrite Q4, Q6, D; reflexivity).
    replace (istep cfg (QUOTE_IN_QUOTED_FIELD, mkDoc R r g n) (quotechar cfg))
      with (IN_QUOTED_FIELD, mkDoc R r (g ++ [q]) n) by (step; fold q; rewrite Q6; reflexivity).
    rewrite IH, <- app_assoc by auto. auto.
  - assert (Ec : is_escape cfg (escapechar cfg) = true).
    { unfold is_escape. rewrite Z.eqb_refl. destruct (Z.eqb_spec (escapechar cfg) 0); auto; tauto. }
    replace (istep cfg (IN_QUOTED_FIELD, mkDoc R r g n) (escapechar cfg))
      with (ESCAPE_IN_QUOTED_FIELD, mkDoc R r g n) by (step; rewrite Ec; reflexivity).
    replace (istep cfg (ESCAPE_IN_QUOTED_FIELD, mkDoc R r g n) c)
      with (IN_QUOTED_FIELD, mkDoc R r (g ++ [c]) n) by (step; reflexivity).
    rewrite IH, <- app_assoc by auto. auto.
Qed.

Lemma plain_reads f : (forall c, In c f -> ~ In c (special_chars cfg)) -> forall R r g n, 0 <= n ->
  fold_left (istep cfg) f (IN_FIELD, mkDoc R r g n) = (IN_FIELD, mkDoc R r (g ++ f) n).
Proof.
  induction f as [|c f IH]; intros H R r g n Hn; cbn [fold_left].
  - rewrite app_nil_r. auto.
  - destruct (plain_tests c) as (P1 & P2 & P3 & P4 & P5 & P6); [apply H; left; auto|].
    replace (istep cfg (IN_FIELD, mkDoc R r g n) c) with (IN_FIELD, mkDoc R r (g ++ [c]) n)
      by (step; rewrite P1, P2, P3, P4, P5; reflexivity).
    rewrite IH, <- app_assoc; auto. intros x Hx. apply H. right. auto.
Qed.

(** ** Fields *)
Definition opening (st : tstate) : Prop := st = START_RECORD \/ st = START_FIELD.
Definition closing (st : tstate) : Prop := st = IN_FIELD \/ st = START_FIELD \/ st = QUOTE_IN_QUOTED_FIELD.

Lemma field_reads f t : field_text cfg f t -> forall st R r n, opening st -> 0 <= n ->
  exists st', fold_left (istep cfg) t (st, mkDoc R r [] n) = (st', mkDoc R r f n) /\
  (closing st' \/ st' = START_RECORD /\ t = []).
Proof.
  destruct w_plain_ws as [DW SE]. intros F st R r n O Hn. destruct F as [f t Q|f P S].
  - destruct quote_tests as (Q1 & Q2 & Q3 & Q4 & Q5 & Q6). fold q.
    cbn [fold_left].
    replace (istep cfg (st, mkDoc R r [] n) q) with (IN_QUOTED_FIELD, mkDoc R r (@nil Z) n).
    + rewrite fold_left_app, (quoted_reads f t Q) by auto. cbn [app fold_left].
      exists (if doublequote cfg then QUOTE_IN_QUOTED_FIELD else IN_FIELD). split.
      * step. rewrite Q4, Q6. destruct (doublequote cfg); reflexivity.
      * left. unfold closing. destruct (doublequote cfg); auto.
    + destruct O as [-> | ->]; step; unfold start_field; rewrite ?Q1, ?Q2, ?Q3, ?Q6, ?DW, ?SE, ?andb_false_r; reflexivity.
  - destruct f as [|c f].
    + exists st. split; [reflexivity|]. destruct O as [-> | ->]; unfold closing; auto.
    + exists IN_FIELD. split; [|left; left; auto].
      destruct (plain_tests c) as (P1 & P2 & P3 & P4 & P5 & P6); [apply P; left; auto|].
      assert (P7 : is_skippable cfg c = false).
      { unfold is_skippable. destruct (skipinitialspace cfg) eqn:K; rewrite ?andb_false_r; auto.
        destruct (Z.eqb_spec c 32); rewrite ?andb_false_r; auto. subst. destruct (S eq_refl). auto. }
      cbn [fold_left].
      replace (istep cfg (st, mkDoc R r [] n) c) with (IN_FIELD, mkDoc R r [c] n).
      * rewrite plain_reads; auto. intros x Hx. apply P. right. auto.
      * destruct O as [-> | ->]; step; unfold start_field;
          rewrite P1, P2, ?P3, P4, P5, P6, P7, ?DW, ?SE, ?andb_false_r; reflexivity.
Qed.

Lemma delim_reads st R r f n : closing st \/ (st = START_RECORD /\ f = []) -> 0 <= n ->
  istep cfg (st, mkDoc R r f n) dl = (START_FIELD, mkDoc R (r ++ [f]) [] n).
Proof.
  destruct w_plain_ws as [DW SE]. destruct delim_tests as (D1 & D2 & D3 & D4 & D5 & D6 & D7).
  intros [[-> |[-> | ->]]|[-> ->]] Hn; step; unfold start_field;
    rewrite ?D1, ?D2, ?D3, ?D4, ?D5, ?D6, ?D7, ?DW, ?SE, ?andb_false_r; reflexivity.
Qed.

(** ** Records *)
Lemma record_reads r t : record_text cfg r t -> forall st R r0 n, opening st -> 0 <= n ->
  exists st' r1 f, fold_left (istep cfg) t (st, mkDoc R r0 [] n) = (st', mkDoc R r1 f n) /\
  r1 ++ [f] = r0 ++ r /\ (closing st' \/ st' = START_RECORD /\ t = []).
Proof.
  induction 1 as [f t F|f t fs ts F H IH]; intros st R r0 n O Hn.
  - destruct (field_reads f t F st R r0 n O Hn) as (st' & E & C). exists st', r0, f. auto.
  - destruct (field_reads f t F st R r0 n O Hn) as (st' & E & C). rewrite fold_left_app, E.
    cbn [fold_left]. fold dl. rewrite delim_reads; auto.
    + destruct (IH START_FIELD R (r0 ++ [f]) n) as (st2 & r1 & f2 & E2 & E3 & C2); auto.
      { right. auto. }
      exists st2, r1, f2. split; [auto|]. rewrite E3, <- app_assoc. split; auto.
      destruct C2 as [C2|[-> ->]]; auto. exfalso. cbn [fold_left] in E2. injection E2. discriminate.
    + destruct C as [C|[C ->]]; auto. right. split; auto. inversion F; auto.
Qed.
Lemma record_first r t : record_text cfg r t -> t <> [] -> lineterminator cfg = 0 -> hd_error t <> Some 10.
Proof.
  assert (FF : forall f t, field_text cfg f t -> lineterminator cfg = 0 -> hd_error t <> Some 10).
  { intros f t' F L. destruct distinct as (_ & _ & _ & D4 & _). specialize (D4 L).
    destruct F as [f t' Q|f P _]; cbn [hd_error].
    - fold q. intros E. injection E. tauto.
    - destruct f as [|c f]; [discriminate|]. cbn. intros E. injection E as ->.
      apply (P 10); [left; auto|]. unfold special_chars. rewrite L. cbn [In Z.eqb].
      right. right. rewrite !in_app_iff. cbn. auto. }
  intros H Ht L. destruct H as [f t F|f t fs ts F H]; [eapply FF; eauto|].
  destruct t as [|c t]; cbn [app hd_error] in *.
  - destruct distinct as (_ & _ & _ & D4 & _). specialize (D4 L). fold dl. intros E. injection E. tauto.
  - apply (FF f (c :: t) F L).
Qed.

(** ** Lines *)
Lemma closing_newline st R r f n : closing st -> 0 <= n ->
  istep cfg (st, mkDoc R r f n) term = (START_RECORD, mkDoc (R ++ [r ++ [f]]) [] [] (n + 1)).
Proof.
  destruct term_tests as (T1 & T2 & T3). intros [-> |[-> | ->]] Hn; step; unfold start_field;
    rewrite ?T1, ?T2, ?T3; reflexivity.
Qed.
Lemma closing_cr st R r f n : lineterminator cfg = 0 -> closing st -> 0 <= n ->
  istep cfg (st, mkDoc R r f n) 13 = (EAT_CRNL, mkDoc R (r ++ [f]) [] n).
Proof.
  intros L. destruct (cr_tests L) as (T1 & T2 & T3 & T4). intros [-> |[-> | ->]] Hn; step; unfold start_field;
    rewrite ?T1, ?T2, ?T3, ?T4; reflexivity.
Qed.
Lemma crnl_newline R r n : istep cfg (EAT_CRNL, mkDoc R r [] n) 10 = (START_RECORD, mkDoc (R ++ [r]) [] [] (n + 1)).
Proof. reflexivity. Qed.
Lemma crnl_next R r n c : c <> 10 -> 0 <= n ->
  istep cfg (EAT_CRNL, mkDoc R r [] n) c = istep cfg (START_RECORD, mkDoc (R ++ [r]) [] [] (n + 1)) c.
Proof.
  intros C Hn. destruct w_plain_ws as [DW SE].
  destruct (Z.eqb_spec c dl) as [-> |N].
  - rewrite (delim_reads START_RECORD (R ++ [r]) [] [] (n + 1)) by (first [lia | right; auto]). destruct delim_tests as (_ & _ & _ & _ & D5 & _).
    step. apply Z.eqb_neq in C. rewrite C, D5, DW. reflexivity.
  - rewrite <- (Z.eqb_neq c 10) in C.
    assert (D : is_delimiter cfg c = false).
    { unfold is_delimiter. rewrite DW. cbn. rewrite orb_false_r. apply Z.eqb_neq; auto. }
    unfold istep at 1. cbn [fst snd nline react]. rewrite C, D. cbn [iexec fold_left iexec1 rows row field nline].
    rewrite no_skip by lia. unfold istep. cbn [fst snd nline react]. rewrite no_skip by lia.
    destruct (start_record cfg false c) as [[evs st'] mv] eqn:E.
    assert (M : mv = Advance).
    { revert E. unfold start_record, start_field, go.
      repeat match goal with |- context [if ?b then _ else _] => destruct b end;
        intros E; injection E as _ _ <-; reflexivity. }
    rewrite M. reflexivity.
Qed.

(** ** Tables *)
Lemma table_reads rs t : table_text cfg rs t -> forall R n, 0 <= n ->
  ieof (fold_left (istep cfg) t (START_RECORD, mkDoc R [] [] n)) = Some (R ++ rs) /\
  (lineterminator cfg = 0 -> hd_error t <> Some 10) /\ t <> [].
Proof.
  assert (RR : forall r t, record_text cfg r t -> t <> [] -> forall R n, 0 <= n ->
     exists st r1 f, fold_left (istep cfg) t (START_RECORD, mkDoc R [] [] n) = (st, mkDoc R r1 f n) /\
     r1 ++ [f] = r /\ closing st).
  { intros r t0 H Ht R n Hn. destruct (record_reads r t0 H START_RECORD R [] n) as (st & r1 & f & E & E2 & C); auto.
    - left. auto.
    - exists st, r1, f. destruct C as [C|[_ C]]; [auto|contradiction]. }
  assert (HD : forall a b : text, a <> [] -> hd_error (a ++ b) = hd_error a) by (intros [] ?; [congruence|auto]).
  assert (NE : forall a b : text, a <> [] -> a ++ b <> []) by (intros [] ?; [congruence|discriminate]).
  induction 1 as [r t H Ht|r t nl H Ht Hn0|r t nl rs ts H Ht Hn0 H1 IH]; intros R n Hn.
  - split; [|split; [eapply record_first; eauto|auto]].
    destruct (RR r t H Ht R n Hn) as (st & r1 & f & -> & <- & C).
    destruct C as [-> |[-> | ->]]; reflexivity.
  - split; [|split; [intros; rewrite HD by auto; eapply record_first; eauto|auto]].
    destruct (RR r t H Ht R n Hn) as (st & r1 & f & E & <- & C). rewrite fold_left_app, E.
    unfold newline in Hn0. destruct (Z.eqb_spec (lineterminator cfg) 0) as [L|L].
    + assert (T : term = 10) by (unfold term; rewrite L; auto).
      destruct Hn0 as [-> |[-> | ->]]; cbn [fold_left].
      * rewrite <- T at 1. rewrite closing_newline; auto.
      * rewrite closing_cr by auto. rewrite crnl_newline. reflexivity.
      * rewrite closing_cr by auto. reflexivity.
    + subst nl. cbn [fold_left]. apply Z.eqb_neq in L.
      replace (lineterminator cfg) with term by (unfold term; rewrite L; auto).
      rewrite closing_newline; auto.
  - split; [|split; [intros; rewrite HD by auto; eapply record_first; eauto|auto]].
    destruct (RR r t H Ht R n Hn) as (st & r1 & f & E & <- & C). rewrite fold_left_app, E.
    destruct (IH (R ++ [r1 ++ [f]]) (n + 1) ltac:(lia)) as (IH1 & IH2 & IH3).
    rewrite <- app_assoc in IH1. rewrite fold_left_app.
    unfold newline in Hn0. destruct (Z.eqb_spec (lineterminator cfg) 0) as [L|L].
    + assert (T : term = 10) by (unfold term; rewrite L; auto).
      destruct Hn0 as [-> |[-> | ->]]; cbn [fold_left].
      * rewrite <- T at 1. rewrite closing_newline; auto.
      * rewrite closing_cr by auto. rewrite crnl_newline. auto.
      * rewrite closing_cr by auto. destruct ts as [|c ts]; [congruence|]. cbn [fold_left] in *.
        rewrite crnl_next; auto. intros ->. apply IH2; auto.
    + subst nl. cbn [fold_left]. apply Z.eqb_neq in L.
      replace (lineterminator cfg) with term by (unfold term; rewrite L; auto).
      rewrite closing_newline; auto.
Qed.
End Writer.

Lemma ideal_table cfg rs t : writable cfg -> table_text cfg rs t -> ideal cfg t = Some rs.
Proof. intros W T. apply (table_reads cfg W rs t T [] 0). lia. Qed.
