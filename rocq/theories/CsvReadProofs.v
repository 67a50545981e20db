(** Proofs about reading CSV files: tokenizer and data array together. *)
From Coq Require Import ZArith List Bool Lia.
From Verif Require Import Base CsvTokModel CsvTokSpec CsvTokProofs CsvTokCapProofs CsvWriteProofs CsvFillProofs.
Import ListNotations.
Local Open Scope Z_scope.

Lemma writable_no_back cfg : writable cfg -> no_back cfg.
Proof. intros (_ & _ & H & _). left. auto. Qed.
Lemma rectangular_nondecreasing nc (rs : list (list text)) prev : (prev <= nc)%nat -> rectangular nc rs -> nondecreasing prev rs.
Proof.
  intros H R. revert prev H. induction R as [|r rs E F IH]; intros prev H; cbn; auto.
  split; [lia|]. apply IH. lia.
Qed.

Lemma nondecreasing_table cfg fuel b chunks rs : no_back cfg -> unmarked chunks ->
  enough fuel (with_bom b chunks) -> ideal cfg (concat chunks) = Some rs -> nondecreasing 0 rs ->
  exists st d, tokenize_all cfg fuel (with_bom b chunks) = Done st d /\ table d = rs /\
               words d = concat (table d) /\ lines d = index 0 rs.
Proof.
  intros NB U En E M. destruct (tokenizer_done cfg fuel b chunks rs NB U En E M) as (st & d & D).
  exists st, d. pose proof (all_ideal cfg fuel b chunks NB U) as X. rewrite D in X.
  destruct X as (s & X1 & X2 & X3). rewrite E in X1. injection X1 as ->.
  pose proof (rep_table d s X2) as T. pose proof (rep_words d s X2 X3) as Wd.
  rewrite (pad_rows_id _ _ M) in T. repeat split; auto.
  destruct X2 as (_ & _ & L & _). rewrite L, (pad_rows_id _ _ M). auto.
Qed.

Lemma written_table cfg rs t nc b chunks fuel : writable cfg -> table_text cfg rs t -> rectangular nc rs ->
  concat chunks = t -> unmarked chunks -> enough fuel (with_bom b chunks) ->
  exists st d, tokenize_all cfg fuel (with_bom b chunks) = Done st d /\ table d = rs.
Proof.
  intros W T R E U En. destruct (nondecreasing_table cfg fuel b chunks rs) as (st & d & D1 & D2 & _); eauto.
  - apply writable_no_back; auto.
  - rewrite E. apply ideal_table; auto.
  - apply (rectangular_nondecreasing nc rs 0); [lia|auto].
Qed.

Lemma rectangular_body {A} nc sf (rs : list (list A)) : rectangular nc rs -> rectangular nc (body sf rs).
Proof.
  intros R. destruct sf; auto. unfold rectangular in *. rewrite Forall_forall in *. intros x Hx. apply R.
  destruct rs as [|r rs]; [auto|]. destruct (@exists_last _ (r :: rs)) as (k & y & Ek); [discriminate|].
  unfold body in Hx. rewrite Ek in *. rewrite removelast_last in Hx. apply in_or_app. auto.
Qed.

Lemma written_data {T} (conv : text -> option T) zero missing warn rm sf (first : nat) cfg rs t nc b chunks fuel :
  writable cfg -> table_text cfg rs t -> rectangular nc rs -> concat chunks = t -> unmarked chunks ->
  enough fuel (with_bom b chunks) -> (first <= 1)%nat -> (first < length (body sf rs))%nat ->
  converts conv (skipn first (body sf rs)) ->
  exists a, read_csv T conv zero missing warn rm sf (Z.of_nat first) cfg fuel (with_bom b chunks)
            = Some (Populated st_success a (Z.of_nat (length (body sf rs) - first)) (Z.of_nat nc)) /\
  holds conv missing rm (skipn first (body sf rs)) (length (body sf rs) - first) nc a.
Proof.
  intros W Tx R E U En F1 F2 Cv.
  destruct (nondecreasing_table cfg fuel b chunks rs) as (st & d & D1 & D2 & D3 & D4); auto.
  { apply writable_no_back; auto. } { rewrite E. apply ideal_table; auto. }
  { apply (rectangular_nondecreasing nc rs 0); [lia|auto]. }
  unfold read_csv. rewrite D1. cbn [parsed]. rewrite D2 in D3.
  pose proof (populate_spec T conv zero missing warn rm sf first d rs [] F1) as X.
  rewrite app_nil_r in X. specialize (X D3 D4).
  pose proof (rectangular_body nc sf rs R) as RB.
  assert (N : body sf rs <> []) by (intros Z; rewrite Z in F2; cbn in F2; lia).
  rewrite (rectangular_div nc _ N RB) in X.
  destruct (populate _ _ _ _ _ _ _ _ _) as [st1 a nr nc1|nc1| |].
  - destruct X as (nrn & ncn & -> & -> & X1 & -> & X2 & X3 & X4).
    assert (Hn : nrn = (length (body sf rs) - first)%nat).
    { destruct X2 as (_ & L & _). rewrite <- L. apply skipn_length. }
    subst nrn. exists a. split; auto. destruct X4 as [[-> _]|[_ X4]]; [auto|contradiction].
  - lia.
  - destruct X as [X|[_ X]]; [|contradiction]. destruct X. apply rectangular_skipn; auto.
  - contradiction.
Qed.

(** What a successful read of a completely parsed file means. *)
Lemma populated_sound {T} (conv : text -> option T) zero missing warn rm sf (first : nat) cfg fuel b chunks st d st1 a nr nc :
  no_back cfg -> unmarked chunks -> (first <= 1)%nat ->
  tokenize_all cfg fuel (with_bom b chunks) = Done st d ->
  populate T conv zero missing warn rm sf (Z.of_nat first) d = Populated st1 a nr nc ->
  exists nrn ncn, nr = Z.of_nat nrn /\ nc = Z.of_nat ncn /\ rectangular ncn (body sf (table d)) /\
    holds conv missing rm (skipn first (body sf (table d))) nrn ncn a /\
    (warn = false -> converts conv (skipn first (body sf (table d)))) /\
    (st1 = st_success <-> converts conv (skipn first (body sf (table d)))).
Proof.
  intros NB U F D E. pose proof (all_ideal cfg fuel b chunks NB U) as X. rewrite D in X.
  destruct X as (s & X1 & X2 & X3). pose proof (rep_table d s X2) as Td.
  pose proof (rep_words d s X2 X3) as Wd. pose proof X2 as (_ & _ & L & _).
  pose proof (populate_spec T conv zero missing warn rm sf first d (table d) [] F) as Q.
  rewrite app_nil_r, Td in Q. rewrite <- Td in Q at 1. specialize (Q Wd L). rewrite <- Td in Q. rewrite E in Q.
  destruct Q as (nrn & ncn & -> & -> & Q1 & Q2 & Q3 & Q4 & Q5). exists nrn, ncn.
  split; [auto|]. split; [auto|]. split.
  { apply (header_rectangular first); auto.
    - destruct Q3 as (_ & Q3 & _). rewrite skipn_length in Q3. lia.
    - rewrite Td. pose proof (pad_rows_nondecreasing 0 (rows s)) as M. destruct sf; auto. unfold body.
      destruct (pad_rows 0 (rows s)) as [|r k] eqn:Ek; [auto|].
      destruct (@exists_last _ (r :: k)) as (k2 & y & Ek2); [discriminate|]. rewrite Ek2, removelast_last in *.
      eapply nondecreasing_app; eauto.
    - apply Q3. }
  split; [auto|]. split; [auto|]. destruct Q5 as [[-> Q5]|[-> Q5]].
  - tauto.
  - split; [discriminate|tauto].
Qed.

Lemma ragged_refused {T} (conv : text -> option T) zero missing warn rm sf (first : nat) cfg fuel b chunks st d :
  no_back cfg -> unmarked chunks -> (first <= 1)%nat ->
  tokenize_all cfg fuel (with_bom b chunks) = Done st d ->
  (forall n, ~ rectangular n (body sf (table d))) ->
  populate T conv zero missing warn rm sf (Z.of_nat first) d = Refused.
Proof.
  intros NB U F D N. destruct (populate _ _ _ _ _ _ _ _ _) as [st1 a nr nc|nc| |] eqn:E; auto.
  - destruct (populated_sound conv zero missing warn rm sf first cfg fuel b chunks st d st1 a nr nc NB U F D E)
      as (nrn & ncn & _ & _ & R & _). destruct (N _ R).
  - pose proof (all_ideal cfg fuel b chunks NB U) as X. rewrite D in X.
    destruct X as (s & X1 & X2 & X3). pose proof (rep_table d s X2) as Td.
    pose proof (rep_words d s X2 X3) as Wd. pose proof X2 as (_ & _ & L & _).
    pose proof (populate_spec T conv zero missing warn rm sf first d (table d) [] F) as Q.
    rewrite app_nil_r, Td in Q. rewrite <- Td in Q at 1. specialize (Q Wd L). rewrite <- Td in Q. rewrite E in Q.
    destruct (body sf (table d)) as [|r [|r2 k]] eqn:Eb; cbn [length] in Q; try lia.
    + destruct (N 0%nat). constructor.
    + destruct (N (length r)). repeat constructor.
  - pose proof (all_ideal cfg fuel b chunks NB U) as X. rewrite D in X.
    destruct X as (s & X1 & X2 & X3). pose proof X2 as (Hw & _ & L & _).
    pose proof (populate_spec T conv zero missing warn rm sf first d _ _ F Hw L) as Q. rewrite E in Q. contradiction.
Qed.

(** The indices of the data array are always valid. *)
Lemma populate_in_bounds {T} (conv : text -> option T) zero missing warn rm sf (first : nat) cfg fuel b chunks d :
  no_back cfg -> unmarked chunks -> (first <= 1)%nat ->
  parsed (tokenize_all cfg fuel (with_bom b chunks)) = Some d ->
  populate T conv zero missing warn rm sf (Z.of_nat first) d <> BadAccess.
Proof.
  intros NB U F D E. pose proof (all_ideal cfg fuel b chunks NB U) as X.
  assert (R : exists s, rep d s).
  { destruct (tokenize_all _ _ _); cbn in D; try discriminate; injection D as ->.
    - destruct X as (s & _ & X & _). eauto.
    - auto. }
  destruct R as (s & Hw & _ & L & _).
  pose proof (populate_spec T conv zero missing warn rm sf first d _ _ F Hw L) as Q. rewrite E in Q. contradiction.
Qed.

Lemma chunking_same cfg fuel1 fuel2 b1 b2 chunks1 chunks2 st1 d1 st2 d2 : no_back cfg ->
  unmarked chunks1 -> unmarked chunks2 -> concat chunks1 = concat chunks2 ->
  tokenize_all cfg fuel1 (with_bom b1 chunks1) = Done st1 d1 ->
  tokenize_all cfg fuel2 (with_bom b2 chunks2) = Done st2 d2 -> table d1 = table d2.
Proof.
  intros NB U1 U2 E D1 D2.
  destruct (tokenizer_reads _ _ _ _ _ _ NB U1 D1) as (r1 & A1 & A2 & _).
  destruct (tokenizer_reads _ _ _ _ _ _ NB U2 D2) as (r2 & B1 & B2 & _).
  rewrite E in A1. congruence.
Qed.
Lemma chunking_total cfg fuel1 fuel2 b1 b2 chunks1 chunks2 rs : no_back cfg ->
  unmarked chunks1 -> unmarked chunks2 -> concat chunks1 = concat chunks2 ->
  enough fuel1 (with_bom b1 chunks1) -> enough fuel2 (with_bom b2 chunks2) ->
  ideal cfg (concat chunks1) = Some rs -> nondecreasing 0 rs ->
  exists st1 d1 st2 d2, tokenize_all cfg fuel1 (with_bom b1 chunks1) = Done st1 d1 /\
    tokenize_all cfg fuel2 (with_bom b2 chunks2) = Done st2 d2 /\ table d1 = rs /\ table d2 = rs.
Proof.
  intros NB U1 U2 E F1 F2 I M.
  destruct (nondecreasing_table cfg fuel1 b1 chunks1 rs NB U1 F1 I M) as (st1 & d1 & A1 & A2 & _).
  rewrite E in I.
  destruct (nondecreasing_table cfg fuel2 b2 chunks2 rs NB U2 F2 I M) as (st2 & d2 & B1 & B2 & _).
  exists st1, d1, st2, d2. auto.
Qed.
Lemma unterminated_not_done cfg fuel b chunks : no_back cfg -> unmarked chunks ->
  ideal cfg (concat chunks) = None -> forall st d, tokenize_all cfg fuel (with_bom b chunks) <> Done st d.
Proof.
  intros NB U I st d E. destruct (tokenizer_reads _ _ _ _ _ _ NB U E) as (r & A & _). congruence.
Qed.
Lemma no_padding_in_bounds {T} (conv : text -> option T) zero missing warn rm sf (first : nat) cfg fuel b chunks rs :
  no_back cfg -> unmarked chunks -> (first <= 1)%nat -> enough fuel (with_bom b chunks) ->
  ideal cfg (concat chunks) = Some rs -> nondecreasing 0 rs ->
  exists p, read_csv T conv zero missing warn rm sf (Z.of_nat first) cfg fuel (with_bom b chunks) = Some p /\ p <> BadAccess.
Proof.
  intros NB U F En I M. destruct (nondecreasing_table cfg fuel b chunks rs NB U En I M) as (st & d & A & _).
  unfold read_csv. assert (P : parsed (tokenize_all cfg fuel (with_bom b chunks)) = Some d) by (rewrite A; auto).
  rewrite P. eexists. split; [reflexivity|]. eapply populate_in_bounds; eauto.
Qed.
Lemma malformed_reported_lemma {T} (conv : text -> option T) zero missing warn rm sf (first : nat) cfg fuel b chunks :
  no_back cfg -> unmarked chunks -> (first <= 1)%nat ->
  (forall st d, tokenize_all cfg fuel (with_bom b chunks) = Done st d ->
     (exists rs, ideal cfg (concat chunks) = Some rs /\ table d = pad_rows 0 rs) /\
     (forall st1 a nr nc, populate T conv zero missing warn rm sf (Z.of_nat first) d = Populated st1 a nr nc ->
        exists nrn ncn, nr = Z.of_nat nrn /\ nc = Z.of_nat ncn /\ rectangular ncn (body sf (table d)) /\
          holds conv missing rm (skipn first (body sf (table d))) nrn ncn a /\
          (warn = false -> converts conv (skipn first (body sf (table d)))) /\
          (st1 = st_success <-> converts conv (skipn first (body sf (table d))))) /\
     ((forall n, ~ rectangular n (body sf (table d))) ->
        populate T conv zero missing warn rm sf (Z.of_nat first) d = Refused)) /\
  (ideal cfg (concat chunks) = None ->
   forall st d, tokenize_all cfg fuel (with_bom b chunks) <> Done st d).
Proof.
  intros NB U F. split; [|apply unterminated_not_done; auto].
  intros st d D. split; [|split].
  - destruct (tokenizer_reads _ _ _ _ _ _ NB U D) as (rs & A & B & _). eauto.
  - intros st1 a nr nc E. eapply populated_sound; eauto.
  - intros N. eapply ragged_refused; eauto.
Qed.
