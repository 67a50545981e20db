From Coq Require Import ZArith List Bool Lia Arith.
From Verif Require Import Base ErrorModel ErrorSpec.
Import ListNotations.

(** The trace stores the first nine entries as they are, and a tenth generic one. *)
Definition stored (l : list entry) : list entry :=
  firstn 9 l ++ (if Nat.ltb 9 (length l) then [(st_internal_error, too_many, DA_ERROR)] else []).

Definition balanced (t : trace) : Prop :=
  length (mesg t) = length (status t) /\ length (details t) = length (status t) /\
  length (telem t) = length (status t) /\ length (sev t) = length (status t).

Lemma combine_snoc {A B} (l : list A) (l' : list B) a b :
  length l = length l' -> combine (l ++ [a]) (l' ++ [b]) = combine l l' ++ [(a, b)].
Proof.
  revert l'. induction l as [|x l IH]; intros [|y l'] H; simpl in *; try discriminate; auto.
  rewrite IH; auto.
Qed.

Lemma stored_length l : length (stored l) = Nat.min 10 (length l).
Proof.
  unfold stored. rewrite app_length, firstn_length.
  destruct (Nat.ltb_spec 9 (length l)); simpl length; lia.
Qed.

Lemma firstn_snoc_small {A} n (l : list A) x : length l < n -> firstn n (l ++ [x]) = firstn n l ++ [x].
Proof.
  intros H. rewrite !firstn_all2; auto; try lia. rewrite app_length; simpl; lia.
Qed.

Lemma firstn_snoc_big {A} n (l : list A) x : n <= length l -> firstn n (l ++ [x]) = firstn n l.
Proof.
  intros H. rewrite firstn_app. replace (n - length l) with 0 by lia. simpl. apply app_nil_r.
Qed.

Lemma stored_snoc l e : stored (l ++ [e]) =
  if Nat.ltb (length (stored l)) 9 then stored l ++ [e]
  else if Nat.eqb (length (stored l)) 9 then stored l ++ [(st_internal_error, too_many, DA_ERROR)]
  else stored l.
Proof.
  rewrite stored_length. unfold stored. rewrite app_length. simpl length.
  destruct (Nat.ltb_spec (Nat.min 10 (length l)) 9).
  - rewrite firstn_snoc_small by lia.
    replace (9 <? length l + 1) with false by (symmetry; apply Nat.ltb_ge; lia).
    replace (9 <? length l) with false by (symmetry; apply Nat.ltb_ge; lia).
    rewrite !app_nil_r. reflexivity.
  - rewrite firstn_snoc_big by lia.
    replace (9 <? length l + 1) with true by (symmetry; apply Nat.ltb_lt; lia).
    destruct (Nat.eqb_spec (Nat.min 10 (length l)) 9).
    + replace (9 <? length l) with false by (symmetry; apply Nat.ltb_ge; lia).
      rewrite app_nil_r. reflexivity.
    + replace (9 <? length l) with true by (symmetry; apply Nat.ltb_lt; lia). reflexivity.
Qed.

Record good (t : trace) (l : list entry) : Prop := {
  g_bal : balanced t; g_ent : entries_of t = stored l }.

Lemma good_len t l : good t l -> length (status t) = length (stored l).
Proof.
  intros [(B1 & B2 & B3 & B4) E]. rewrite <- E. unfold entries_of.
  rewrite !combine_length. lia.
Qed.

Lemma good_rec t l st m d te sv : good t l ->
  good (snd (rec t st m d te sv true)) (l ++ [(st, m, sv)]).
Proof.
  intros G. pose proof (good_len _ _ G) as L. destruct G as [(B1 & B2 & B3 & B4) E].
  unfold rec. cbn [snd]. rewrite L. change (stack_size - 1) with 9.
  pose proof (stored_snoc l (st, m, sv)) as S.
  destruct (Nat.ltb (length (stored l)) 9) eqn:C1.
  - split.
    + unfold balanced; simpl. rewrite !app_length; simpl. lia.
    + rewrite S. unfold entries_of in *. simpl.
      rewrite !combine_snoc; try congruence.
      rewrite combine_length. lia.
  - destruct (Nat.eqb (length (stored l)) 9) eqn:C2.
    + split.
      * unfold balanced; simpl. rewrite !app_length; simpl. lia.
      * rewrite S. unfold entries_of in *. simpl.
        rewrite !combine_snoc; try congruence.
        rewrite combine_length. lia.
    + split; [unfold balanced; auto|]. rewrite S. auto.
Qed.

Lemma good_empty : good empty_trace [].
Proof. split; [unfold balanced; auto|reflexivity]. Qed.

Lemma good_run ops : forall t l, good t l -> good (fold_left estep ops t) (since_reset l ops).
Proof.
  induction ops as [|o ops IH]; intros t l G; auto.
  destruct o as [st m d te sv k|].
  - destruct k.
    + apply IH. apply good_rec; auto.
    + change (since_reset l (ERec st m d te sv false :: ops)) with (since_reset ([] ++ [(st, m, sv)]) ops).
      apply IH. change (estep t (ERec st m d te sv false)) with
        (snd (rec empty_trace st m d te sv true)). apply good_rec, good_empty.
  - apply IH, good_empty.
Qed.

Lemma trace_lemma ops : let t := erun ops in let l := since_reset [] ops in
  length (status t) <= 10 /\
  (forall st m sv rest, l = (st, m, sv) :: rest ->
     get_status t = st /\ get_mesg t = m /\ get_severity t = sv) /\
  (l = [] -> get_status t = st_success /\ get_mesg t = [] /\ get_severity t = DA_NOTSET) /\
  (forall i, i < 9 -> nth_error (entries_of t) i = nth_error l i).
Proof.
  intros t l. assert (G : good t l) by apply good_run, good_empty.
  pose proof (good_len _ _ G) as L. rewrite stored_length in L.
  split; [lia|]. destruct G as [(B1 & B2 & B3 & B4) E].
  split; [|split].
  - intros st m sv rest Hl. rewrite Hl in E. unfold entries_of in E. unfold get_status, get_mesg, get_severity.
    destruct (status t), (mesg t), (sev t); simpl in *; try discriminate.
    unfold stored in E. simpl in E. inversion E. auto.
  - intros Hl. rewrite Hl in *. simpl in L. unfold get_status, get_mesg, get_severity.
    destruct (status t), (mesg t), (sev t); simpl in *; try discriminate. auto.
  - intros i Hi. rewrite E. unfold stored.
    destruct (Nat.lt_ge_cases i (length l)) as [H|H].
    + rewrite nth_error_app1 by (rewrite firstn_length; lia).
      rewrite <- (firstn_skipn 9 l) at 2. rewrite nth_error_app1; auto. rewrite firstn_length; lia.
    + replace (Nat.ltb 9 (length l)) with false by (symmetry; apply Nat.ltb_ge; lia).
      rewrite app_nil_r. rewrite firstn_all2 by lia. reflexivity.
Qed.

Lemma rec_returns_lemma t st m d te sv k : fst (rec t st m d te sv k) = st.
Proof. reflexivity. Qed.

Lemma nth_error_some {A} (l : list A) i : i < length l -> exists x, nth_error l i = Some x.
Proof.
  intros H. destruct (nth_error l i) eqn:E; eauto. apply nth_error_None in E. lia.
Qed.

Lemma print_rows_ok t : balanced t -> forall n i, i + n <= length (status t) ->
  exists rows, print_rows n i t = Some rows /\ length rows = n.
Proof.
  intros (B1 & B2 & B3 & B4). induction n as [|n IH]; intros i H; simpl.
  - exists []; auto.
  - destruct (nth_error_some (sev t) i) as (a & ->); [lia|].
    destruct (nth_error_some (status t) i) as (b & ->); [lia|].
    destruct (nth_error_some (telem t) i) as (c & ->); [lia|].
    destruct (nth_error_some (mesg t) i) as (d & ->); [lia|].
    destruct (nth_error_some (details t) i) as (e & ->); [lia|].
    destruct (IH (S i)) as (r & -> & Hr); [lia|]. eexists; split; [reflexivity|]. simpl; lia.
Qed.

Lemma print_lemma ops :
  exists rows, print (erun ops) = Some rows /\
    length rows = Nat.min 10 (length (since_reset [] ops)).
Proof.
  assert (G : good (erun ops) (since_reset [] ops)) by apply good_run, good_empty.
  pose proof (good_len _ _ G) as L. rewrite stored_length in L.
  destruct G as [B _]. unfold print.
  destruct (status (erun ops)) eqn:S.
  - exists []. simpl in *. auto.
  - destruct (print_rows_ok _ B (length (mesg (erun ops))) 0) as (r & E & H).
    + destruct B as (B1 & _). lia.
    + exists r. split; auto. rewrite H. destruct B as (B1 & _). rewrite B1, S. auto.
Qed.

Lemma message_lemma ops :
  match since_reset [] ops with
  | (_, m, _) :: _ => get_mesg_char (erun ops) = Some (m ++ [0%Z])
  | [] => get_mesg_char (erun ops) = None
  end.
Proof.
  destruct (trace_lemma ops) as (_ & A & B & _).
  assert (G : good (erun ops) (since_reset [] ops)) by apply good_run, good_empty.
  pose proof (good_len _ _ G) as L. rewrite stored_length in L.
  destruct G as [(B1 & _) _].
  destruct (since_reset [] ops) as [|[[st m] sv] rest].
  - simpl in L. unfold get_mesg_char. destruct (mesg (erun ops)); auto. simpl in *. lia.
  - destruct (A st m sv rest eq_refl) as (_ & M & _). simpl length in L.
    unfold get_mesg_char, get_mesg in *. destruct (mesg (erun ops)); simpl in *; [lia|].
    congruence.
Qed.
