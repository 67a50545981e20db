From Coq Require Import ZArith List Bool Lia Permutation.
From Verif Require Import Base ListFacts ShuffleModel ShuffleSpec ShuffleProofs.
Import ListNotations.

Lemma swap_nth {A} (l : list A) i j l' : swap l i j = Some l' ->
  length l' = length l /\
  forall k, nth_error l' k = if k =? j then nth_error l i else if k =? i then nth_error l j
                             else nth_error l k.
Proof.
  unfold swap. destruct (nth_error l i) as [x|] eqn:Ei; [|discriminate].
  destruct (nth_error l j) as [y|] eqn:Ej; [|discriminate].
  destruct (set_at l i y) as [l1|] eqn:E1; [|discriminate]. intros E2.
  destruct (set_at_nth _ _ _ _ E1) as (L1 & _ & N1).
  destruct (set_at_nth _ _ _ _ E2) as (L2 & _ & N2).
  split; [lia|]. intros k. rewrite N2. destruct (k =? j); [congruence|].
  rewrite N1. destruct (k =? i); congruence.
Qed.

Lemma nth_error_ext {A} (l r : list A) : (forall n, nth_error l n = nth_error r n) -> l = r.
Proof.
  revert r. induction l as [|x l IH]; intros [|y r] H; auto.
  - specialize (H 0). discriminate.
  - specialize (H 0). discriminate.
  - pose proof (H 0) as H0. cbn in H0. f_equal; [congruence|]. apply IH. intros n. apply (H (S n)).
Qed.

(** A loop from i leaves the elements above i alone. *)
Lemma shuffle_loop_above {A} draw i : forall (l : list A) k l' k',
  shuffle_loop draw i l k = Some (l', k') -> (forall j, j <= i -> draw (k + (i - j)) j <= j) ->
  forall j, i < j -> nth_error l' j = nth_error l j.
Proof.
  induction i as [|i IH]; intros l k l' k' H D j Hj; cbn [shuffle_loop] in H.
  - congruence.
  - destruct (swap l (S i) (draw k (S i))) as [l1|] eqn:E; [|discriminate].
    assert (Dk : draw k (S i) <= S i).
    { specialize (D (S i) (le_n _)). rewrite Nat.sub_diag, Nat.add_0_r in D. auto. }
    destruct (swap_nth _ _ _ _ E) as (L & N).
    rewrite (IH _ _ _ _ H); [|intros j' Hj'; specialize (D j' ltac:(lia));
      replace (S k + (i - j')) with (k + (S i - j')) by lia; auto|lia].
    rewrite N. destruct (Nat.eqb_spec j (draw k (S i))); [lia|].
    destruct (Nat.eqb_spec j (S i)); [lia|]. auto.
Qed.

(** Draws for the loop starting at i. *)
Definition loop_draws (i : nat) (ds : list nat) : Prop :=
  length ds = i /\ forall k, k < i -> nth k ds 0 <= i - k.

Lemma loop_reach {A} i : forall (l p : list A) pre, NoDup l -> Permutation l p ->
  i < length l -> (forall j, i < j -> nth_error l j = nth_error p j) ->
  exists ds, loop_draws i ds /\
    exists k', shuffle_loop (recorded (pre ++ ds)) i l (length pre) = Some (p, k').
Proof.
  induction i as [|i IH]; intros l p pre Hn Hp Hi Ha.
  - exists []. split; [split; [auto|lia]|]. cbn [shuffle_loop].
    assert (E : l = p); [|subst; eauto].
    destruct l as [|x l]; [cbn in Hi; lia|].
    pose proof (Permutation_length Hp) as L. destruct p as [|y p]; [discriminate|].
    assert (Et : l = p).
    { apply nth_error_ext. intros n. apply (Ha (S n)). lia. }
    subst p. f_equal. pose proof (Permutation_in y (Permutation_sym Hp) (or_introl eq_refl)) as Hy.
    destruct Hy as [|Hy]; auto. exfalso.
    pose proof (Permutation_NoDup Hp Hn) as N. inversion N; contradiction.
  - pose proof (Permutation_length Hp) as L.
    destruct (nth_error p (S i)) as [y|] eqn:Ey; [|apply nth_error_None in Ey; lia].
    assert (Iy : In y l) by (eapply Permutation_in; [apply Permutation_sym; exact Hp|];
      eapply nth_error_In; eauto).
    apply In_nth_error in Iy. destruct Iy as (d & Ed).
    assert (Hd : d <= S i).
    { destruct (Nat.le_gt_cases d (S i)) as [|C]; auto. exfalso.
      rewrite (Ha d C) in Ed.
      pose proof (proj1 (NoDup_nth_error p) (Permutation_NoDup Hp Hn) d (S i)) as U.
      assert (d = S i); [apply U; [apply nth_error_Some; congruence|congruence]|lia]. }
    destruct (swap_perm l (S i) d) as (l1 & E & P1); [lia|lia|].
    destruct (swap_nth _ _ _ _ E) as (L1 & N1).
    destruct (IH l1 p (pre ++ [d])) as (ds & (Dl & Db) & k' & R).
    + eapply Permutation_NoDup; eauto.
    + eapply Permutation_trans; [apply Permutation_sym; eauto|auto].
    + lia.
    + intros j Hj. rewrite N1. destruct (Nat.eqb_spec j d) as [->|].
      * assert (d = S i) by lia. subst d. congruence.
      * destruct (Nat.eqb_spec j (S i)) as [->|]; [congruence|apply Ha; lia].
    + exists (d :: ds). split.
      * split; [cbn; lia|]. intros [|k] Hk; cbn [nth]; [lia|]. specialize (Db k ltac:(lia)). lia.
      * exists k'. cbn [shuffle_loop]. unfold recorded at 1. rewrite app_nth2, Nat.sub_diag by lia.
        cbn [nth]. rewrite E. rewrite app_length in R. cbn [length] in R.
        rewrite Nat.add_1_r in R. rewrite <- app_assoc in R. exact R.
Qed.

Lemma loop_unique {A} i : forall (l p : list A) pre ds1 ds2 k1 k2, NoDup l ->
  i < length l -> loop_draws i ds1 -> loop_draws i ds2 ->
  shuffle_loop (recorded (pre ++ ds1)) i l (length pre) = Some (p, k1) ->
  shuffle_loop (recorded (pre ++ ds2)) i l (length pre) = Some (p, k2) -> ds1 = ds2.
Proof.
  induction i as [|i IH]; intros l p pre ds1 ds2 k1 k2 Hn Hi (L1 & B1) (L2 & B2) H1 H2.
  - destruct ds1, ds2; try discriminate. auto.
  - destruct ds1 as [|d1 ds1], ds2 as [|d2 ds2]; try discriminate.
    cbn [length] in L1, L2.
    assert (K : forall d ds kk, length ds = i -> (forall k, k < S i -> nth k (d :: ds) 0 <= S i - k) ->
      shuffle_loop (recorded (pre ++ d :: ds)) (S i) l (length pre) = Some (p, kk) ->
      exists l1, swap l (S i) d = Some l1 /\ d <= S i /\ nth_error p (S i) = nth_error l d /\
        loop_draws i ds /\
        shuffle_loop (recorded ((pre ++ [d]) ++ ds)) i l1 (length (pre ++ [d])) = Some (p, kk)).
    { intros d ds kk Ld Bd H. cbn [shuffle_loop] in H. unfold recorded at 1 in H.
      rewrite app_nth2, Nat.sub_diag in H by lia. cbn [nth] in H.
      destruct (swap l (S i) d) as [l1|] eqn:E; [|discriminate].
      assert (Hd : d <= S i) by (specialize (Bd 0 ltac:(lia)); cbn in Bd; lia).
      assert (LD : loop_draws i ds).
      { split; auto. intros k Hk. specialize (Bd (S k) ltac:(lia)). cbn [nth] in Bd. lia. }
      exists l1. split; auto. split; auto. split; [|split; auto].
      - destruct (swap_nth _ _ _ _ E) as (_ & N).
        rewrite (shuffle_loop_above _ _ _ _ _ _ H) with (j := S i); [|clear H|lia].
        + rewrite N. destruct (Nat.eqb_spec (S i) d) as [<-|]; auto. rewrite Nat.eqb_refl. auto.
        + intros j Hj. unfold recorded. rewrite app_nth2 by lia.
          replace (S (length pre) + (i - j) - length pre) with (S (i - j)) by lia. cbn [nth].
          destruct (Nat.eq_dec j 0) as [->|].
          * rewrite nth_overflow by lia. lia.
          * destruct LD as (_ & LD). specialize (LD (i - j) ltac:(lia)). lia.
      - rewrite <- app_assoc. cbn [app]. rewrite app_length. cbn [length]. rewrite Nat.add_1_r. auto. }
    destruct (K _ _ _ (eq_add_S _ _ L1) B1 H1) as (l1 & E1 & D1 & P1 & LD1 & R1).
    destruct (K _ _ _ (eq_add_S _ _ L2) B2 H2) as (l2 & E2 & D2 & P2 & LD2 & R2).
    assert (d1 = d2).
    { apply (proj1 (NoDup_nth_error l) Hn); [lia|congruence]. }
    subst d2. assert (l1 = l2) by congruence. subst l2. f_equal.
    destruct (swap_perm l (S i) d1) as (l1' & E' & P'); [lia|lia|].
    assert (l1' = l1) by congruence. subst l1'.
    eapply IH; [| |exact LD1|exact LD2|exact R1|exact R2].
    + eapply Permutation_NoDup; eauto.
    + rewrite <- (Permutation_length P'). lia.
Qed.

Lemma shuffle_fair {A} (l p : list A) : NoDup l -> Permutation l p ->
  exists ds, (possible_draws (length l) ds /\ exists k, shuffle (recorded ds) l 0 = Some (p, k)) /\
    forall ds', possible_draws (length l) ds' ->
      (exists k, shuffle (recorded ds') l 0 = Some (p, k)) -> ds' = ds.
Proof.
  intros Hn Hp. destruct (Nat.eq_dec (length l) 0) as [Z|NZ].
  - destruct l; [|discriminate]. apply Permutation_nil in Hp. subst p.
    exists []. split; [split; [split; [auto|cbn; lia]|exists 0; reflexivity]|].
    intros ds' (L & _) _. destruct ds'; [auto|discriminate].
  - unfold shuffle. destruct (loop_reach (length l - 1) l p []) as (ds & (Dl & Db) & k' & R); auto.
    + lia.
    + intros j Hj. rewrite (proj2 (nth_error_None l j)) by lia.
      rewrite (proj2 (nth_error_None p j)); auto. rewrite <- (Permutation_length Hp). lia.
    + exists ds. split; [split; [split; auto|eauto]|].
      intros ds' (Dl' & Db') (k & R').
      eapply (loop_unique (length l - 1) l p []); eauto; try lia; split; auto.
Qed.
