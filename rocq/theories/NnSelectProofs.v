(** Selection of the k smallest. *)
From Coq Require Import ZArith List Bool Reals Permutation Sorted Lia Lra.
From Verif Require Import Base Par UtilModel NnModel NnSpec.
Import ListNotations.

Lemma perm_put {A} (l : list A) n x y : nth_error l n = Some y -> Permutation (put l n x ++ [y]) (l ++ [x]).
Proof.
  revert n; induction l as [|z l IH]; intros [|n] H; simpl in *; try discriminate.
  - injection H as ->. rewrite <- (Permutation_cons_append l x). rewrite <- (Permutation_cons_append l y). apply perm_swap.
  - constructor. apply IH; auto.
Qed.
Lemma put_length {A} (l : list A) n x : length (put l n x) = length l.
Proof. revert n; induction l; intros [|n]; simpl; auto. Qed.
Lemma in_put {A} (l : list A) n x y : In y (put l n x) -> y = x \/ In y l.
Proof.
  revert n; induction l as [|z l IH]; intros [|n]; simpl; auto.
  - intuition.
  - intros [->|H]; auto. destruct (IH _ H); auto.
Qed.

Section Select.
Context {T : Type} (N : arith T) (ltb leb : T -> T -> bool) (num : T -> Prop) (key : T -> R).
Hypothesis Hc : compares ltb leb num key.
Definition nums (l : list (Z * T)) : Prop := Forall (fun e => num (snd e)) l.

Lemma nums_app a b : nums (a ++ b) <-> nums a /\ nums b.
Proof. apply Forall_app. Qed.
Lemma nums_perm a b : Permutation a b -> nums a -> nums b.
Proof. intros P. unfold nums. apply Permutation_Forall. auto. Qed.

Lemma lt_k a b : num a -> num b -> ltb a b = true <-> (key a < key b)%R.
Proof. apply Hc. Qed.
Lemma le_k a b : num a -> num b -> leb a b = true <-> (key a <= key b)%R.
Proof. apply Hc. Qed.
Lemma lt_kf a b : num a -> num b -> ltb a b = false -> (key b <= key a)%R.
Proof.
  intros Ha Hb H. destruct (Rle_or_lt (key b) (key a)); auto.
  apply lt_k in H0; auto. congruence.
Qed.
Lemma le_kf a b : num a -> num b -> leb a b = false -> (key b < key a)%R.
Proof.
  intros Ha Hb H. destruct (Rle_or_lt (key a) (key b)); auto.
  apply le_k in H0; auto. congruence.
Qed.

Lemma iamax_loop_spec l : forall i idx mv c0, nums (c0 ++ l) -> num mv -> i = length c0 ->
  (exists j, nth_error c0 idx = Some (j, mv)) ->
  (forall e, In e c0 -> (key (snd e) <= key mv)%R) ->
  let (mi, w) := iamax_loop ltb l i idx mv in
  (exists j, nth_error (c0 ++ l) mi = Some (j, w)) /\ (forall e, In e (c0 ++ l) -> (key (snd e) <= key w)%R) /\ num w.
Proof.
  induction l as [|[z x] l IH]; intros i idx mv c0 Hn Hm Hi [j Hj] Hall; simpl.
  - rewrite app_nil_r in *. split; [eauto|split; auto].
  - assert (Hx : num x).
    { apply nums_app in Hn. destruct Hn as [_ Hn]. inversion Hn; auto. }
    assert (Ha : nums ((c0 ++ [(z, x)]) ++ l)) by (rewrite <- app_assoc; exact Hn).
    destruct (ltb mv x) eqn:E.
    + specialize (IH (S i) i x (c0 ++ [(z, x)]) Ha Hx).
      rewrite <- app_assoc in IH. apply IH.
      * rewrite app_length; simpl; lia.
      * exists z. rewrite nth_error_app2 by lia. subst i. now rewrite Nat.sub_diag.
      * intros e He. apply in_app_or in He as [He|[<-|[]]]; simpl; [|lra].
        apply lt_k in E; auto. apply Hall in He. lra.
    + specialize (IH (S i) idx mv (c0 ++ [(z, x)]) Ha Hm).
      rewrite <- app_assoc in IH. apply IH.
      * rewrite app_length; simpl; lia.
      * exists j. rewrite nth_error_app1; auto. apply nth_error_Some. congruence.
      * intros e He. apply in_app_or in He as [He|[<-|[]]]; simpl; auto.
        apply lt_kf in E; auto.
Qed.

Lemma iamax_spec c : c <> [] -> nums c ->
  let (mi, w) := iamax N ltb c in
  (exists j, nth_error c mi = Some (j, w)) /\ (forall e, In e c -> (key (snd e) <= key w)%R) /\ num w.
Proof.
  destruct c as [|[z x] l]; intros H Hn; [congruence|].
  cbn [iamax]. apply (iamax_loop_spec l 1 0 x [(z, x)]); auto.
  - inversion Hn; auto.
  - exists z; reflexivity.
  - intros e [<-|[]]; simpl; lra.
Qed.

Notation offer := (offer N ltb leb).
Notation offer_all := (offer_all N ltb leb).

Lemma offer_length c x : length (offer c x) = length c.
Proof. unfold NnModel.offer. destruct (iamax N ltb c). destruct (leb _ _); auto. apply put_length. Qed.
Lemma offer_nums c x : nums c -> num (snd x) -> nums (offer c x).
Proof.
  intros Hn Hx. unfold NnModel.offer. destruct (iamax N ltb c). destruct (leb _ _); auto.
  apply Forall_forall. intros e He. apply in_put in He as [->|He]; auto.
  unfold nums in Hn; rewrite Forall_forall in Hn; auto.
Qed.
Lemma offer_all_length l : forall c, length (offer_all c l) = length c.
Proof. induction l; intros c; simpl; auto. rewrite IHl. apply offer_length. Qed.

Notation k_smallest := (k_smallest key).

Lemma offer_smallest k all c x : length c = k -> (0 < k)%nat -> nums all -> num (snd x) -> k_smallest k all c ->
  k_smallest k (all ++ [x]) (offer c x).
Proof.
  intros Hl Hk Hn Hx (Hlen & rest & P & Hr).
  assert (Hnc : nums (c ++ rest)) by (eapply nums_perm; [symmetry; exact P|auto]).
  assert (Hc' := proj1 (proj1 (nums_app _ _) Hnc)).
  split.
  { rewrite offer_length, app_length; simpl. lia. }
  unfold NnModel.offer.
  assert (Hne : c <> []) by (intros ->; simpl in *; lia).
  pose proof (iamax_spec c Hne Hc') as HM. destruct (iamax N ltb c) as [mi mv].
  destruct HM as ((j & Hj) & Hmax & Hmv).
  destruct (leb (snd x) mv) eqn:E.
  - exists ((j, mv) :: rest). split.
    + change ((j, mv) :: rest) with ([(j, mv)] ++ rest). rewrite app_assoc, (perm_put _ _ _ _ Hj).
      rewrite <- app_assoc, (Permutation_app_comm [x]), app_assoc, P. reflexivity.
    + apply le_k in E; auto.
      assert (Hjm : In (j, mv) c) by (eapply nth_error_In; eauto).
      intros e r He Hin. apply in_put in He. destruct Hin as [<-|Hin]; simpl.
      * destruct He as [->|He]; auto.
      * destruct He as [->|He]; auto. apply Rle_trans with (key mv); auto. apply (Hr (j, mv) r); auto.
  - exists (rest ++ [x]). split.
    + rewrite app_assoc, P. reflexivity.
    + apply le_kf in E; auto. intros e r He Hin. apply in_app_or in Hin as [Hin|[<-|[]]]; auto.
      apply Hmax in He. lra.
Qed.

Lemma offer_all_smallest k l : forall all c, length c = k -> (0 < k)%nat -> nums all -> nums l -> k_smallest k all c ->
  k_smallest k (all ++ l) (offer_all c l).
Proof.
  induction l as [|x l IH]; intros all c Hl Hk Hn Hnl Hs; simpl.
  - now rewrite app_nil_r.
  - inversion Hnl; subst. replace (all ++ x :: l) with ((all ++ [x]) ++ l) by (rewrite <- app_assoc; reflexivity).
    apply IH; auto.
    + now rewrite offer_length.
    + apply nums_app; split; auto. constructor; auto.
    + apply offer_smallest; auto.
Qed.

(** the vectorized loop offers the same values *)
Lemma offer_below c x mv : c <> [] -> nums c -> num (snd x) -> num mv ->
  (forall e, In e c -> (key (snd e) <= key mv)%R) -> forall e, In e (offer c x) -> (key (snd e) <= key mv)%R.
Proof.
  intros Hne Hn Hx Hm Ha e He. unfold NnModel.offer in He.
  pose proof (iamax_spec c Hne Hn) as HM. destruct (iamax N ltb c) as [mi w]. destruct HM as ((j & Hj) & _ & Hw).
  destruct (leb (snd x) w) eqn:E; auto.
  apply in_put in He as [->|He]; auto.
  apply le_k in E; auto. apply nth_error_In, Ha in Hj. simpl in Hj. lra.
Qed.
Lemma offer_above c x mv : c <> [] -> nums c -> num (snd x) -> num mv ->
  (forall e, In e c -> (key (snd e) <= key mv)%R) -> leb (snd x) mv = false -> offer c x = c.
Proof.
  intros Hne Hn Hx Hm Ha E. unfold NnModel.offer.
  pose proof (iamax_spec c Hne Hn) as HM. destruct (iamax N ltb c) as [mi w]. destruct HM as ((j & Hj) & _ & Hw).
  destruct (leb (snd x) w) eqn:E'; auto.
  apply le_k in E'; auto. apply le_kf in E; auto. apply nth_error_In, Ha in Hj. simpl in Hj. lra.
Qed.
Lemma offer_vector_all lanes : forall c mv, c <> [] -> nums c -> nums lanes -> num mv ->
  (forall e, In e c -> (key (snd e) <= key mv)%R) ->
  offer_vector N ltb leb mv c lanes = offer_all c lanes.
Proof.
  induction lanes as [|x l IH]; intros c mv Hne Hn Hl Hm Ha; auto.
  inversion Hl; subst. unfold offer_vector in *. cbn [filter].
  change (offer_all c (x :: l)) with (offer_all (offer c x) l).
  destruct (leb (snd x) mv) eqn:E.
  - change (offer_all (offer c x) (filter (fun x => leb (snd x) mv) l) = offer_all (offer c x) l).
    apply IH; auto.
    + intros H. apply Hne. apply length_zero_iff_nil. rewrite <- (offer_length c x), H. reflexivity.
    + apply offer_nums; auto.
    + apply offer_below; auto.
  - rewrite (offer_above c x mv) by auto. apply IH; auto.
Qed.
Lemma offer_vectors_all v fuel : forall c l, c <> [] -> nums c -> nums l ->
  offer_vectors N ltb leb fuel v c l = offer_all c l.
Proof.
  induction fuel as [|fuel IH]; intros c l Hne Hn Hl; simpl; auto.
  destruct (Nat.leb v (length l)); auto.
  assert (Hf : nums (firstn v l) /\ nums (skipn v l)).
  { apply nums_app. now rewrite firstn_skipn. }
  pose proof (iamax_spec c Hne Hn) as HM. destruct (iamax N ltb c) as [mi w]. destruct HM as (_ & Hmax & Hw).
  cbn [snd]. rewrite offer_vector_all by (auto; apply Hf).
  rewrite IH.
  - unfold NnModel.offer_all. rewrite <- fold_left_app, firstn_skipn. reflexivity.
  - intros H. apply Hne. apply length_zero_iff_nil. rewrite <- (offer_all_length (firstn v l) c), H. reflexivity.
  - assert (forall l c, nums c -> nums l -> nums (offer_all c l)) as G.
    { clear - Hc. induction l as [|y l IH]; intros c Hn Hl; simpl; auto. inversion Hl; subst. apply IH; auto.
      apply offer_nums; auto. }
    apply G; auto; apply Hf.
  - apply Hf.
Qed.

Lemma smallest_few k all c : k_smallest k all c -> (length c < k)%nat -> Permutation c all.
Proof.
  intros (Hl & rest & P & _) H. pose proof (Permutation_length P) as HL. rewrite app_length in HL.
  assert (rest = []) by (apply length_zero_iff_nil; lia). subst. now rewrite app_nil_r in P.
Qed.
Lemma smallest_all k all c : (length all <= k)%nat -> Permutation c all -> k_smallest k all c.
Proof.
  intros H P. split.
  - rewrite (Permutation_length P). lia.
  - exists []. rewrite app_nil_r. split; auto. intros e r _ [].
Qed.
Lemma smallest_perm k all all' c : Permutation all all' -> k_smallest k all c -> k_smallest k all' c.
Proof.
  intros P (Hl & rest & Q & H). split.
  - now rewrite <- (Permutation_length P).
  - exists rest. split; auto. now rewrite Q.
Qed.
Lemma smallest_le k all c : k_smallest k all c -> (length c <= k)%nat.
Proof. intros (H & _). lia. Qed.

(** filling up, then offering the rest *)
Lemma fill_smallest k all c l (sel : list (Z * T) -> list (Z * T) -> list (Z * T)) :
  (0 < k)%nat -> nums all -> nums l -> k_smallest k all c ->
  (forall c' r, length c' = k -> nums c' -> nums r -> sel c' r = offer_all c' r) ->
  k_smallest k (all ++ l)
    (let c1 := c ++ firstn (k - length c) l in match skipn (k - length c) l with [] => c1 | rest => sel c1 rest end).
Proof.
  intros Hk Hn Hl Hs Hsel. cbv zeta.
  assert (Hf : nums (firstn (k - length c) l) /\ nums (skipn (k - length c) l)).
  { apply nums_app. now rewrite firstn_skipn. }
  assert (Hnc : nums c).
  { destruct Hs as (_ & rest & P & _). eapply nums_perm in Hn; [|symmetry; exact P]. apply nums_app in Hn; tauto. }
  pose proof (smallest_le _ _ _ Hs) as Hle.
  assert (H1 : k_smallest k (all ++ firstn (k - length c) l) (c ++ firstn (k - length c) l)).
  { destruct (Nat.eq_dec (length c) k) as [E|E].
    - rewrite E, Nat.sub_diag. cbn [firstn]. rewrite !app_nil_r. exact Hs.
    - assert (P : Permutation c all) by (apply (smallest_few k); auto; lia).
      apply smallest_all.
      + rewrite app_length, <- (Permutation_length P), firstn_length. lia.
      + apply Permutation_app_tail; auto. }
  destruct (skipn (k - length c) l) as [|y r] eqn:E.
  - rewrite <- (firstn_skipn (k - length c) l), E at 1. rewrite app_nil_r. exact H1.
  - assert (HL : length (c ++ firstn (k - length c) l) = k).
    { assert (length (skipn (k - length c) l) > 0)%nat by (rewrite E; simpl; lia).
      rewrite skipn_length in H. rewrite app_length, firstn_length. lia. }
    rewrite Hsel; auto.
    + rewrite <- (firstn_skipn (k - length c) l) at 1. rewrite app_assoc, E.
      apply offer_all_smallest; auto; try tauto.
      * apply nums_app; tauto.
    + apply nums_app; tauto.
    + tauto.
Qed.

Lemma scan_block_smallest v k all c l : (0 < k)%nat -> nums all -> nums l -> k_smallest k all c ->
  k_smallest k (all ++ l) (scan_block N ltb leb v k c l).
Proof.
  intros Hk Hn Hl Hs. unfold scan_block. apply fill_smallest; auto.
  intros c' r HL Hc' Hr. unfold select. apply offer_vectors_all; auto.
  intros ->. simpl in HL. lia.
Qed.

Lemma thread_scan_smallest v k blocks : (0 < k)%nat -> nums (concat blocks) ->
  k_smallest k (concat blocks) (thread_scan N ltb leb v k blocks).
Proof.
  intros Hk. unfold thread_scan.
  assert (G : forall bs all c, nums all -> nums (concat bs) -> k_smallest k all c ->
            k_smallest k (all ++ concat bs) (fold_left (scan_block N ltb leb v k) bs c)).
  { induction bs as [|b bs IH]; intros all c Hn Hb Hs; simpl.
    - now rewrite app_nil_r.
    - simpl in Hb. apply nums_app in Hb as [Hb1 Hb2]. rewrite app_assoc. apply IH; auto.
      + apply nums_app; auto.
      + apply scan_block_smallest; auto. }
  intros Hn. apply (G blocks [] []); auto.
  - constructor.
  - apply smallest_all; simpl; auto; lia.
Qed.

Lemma perm_incl_part (a b r : list (Z * T)) : (exists s, Permutation (a ++ s) (b ++ r)) ->
  (forall x y, In x a -> In y r -> x <> y) -> exists s, Permutation (a ++ s) b.
Proof.
  revert b. induction a as [|x a IH]; intros b [s P] H.
  - exists b; auto.
  - assert (Hx : In x (b ++ r)) by (eapply Permutation_in; [exact P|left; auto]).
    apply in_app_or in Hx as [Hx|Hx].
    2:{ exfalso. apply (H x x); auto. left; auto. }
    apply in_split in Hx as (b1 & b2 & ->).
    destruct (IH (b1 ++ b2)) as [s' P'].
    + exists s. apply (Permutation_cons_inv (a := x)). simpl in P. rewrite P.
      rewrite <- !app_assoc. simpl. symmetry. apply Permutation_middle.
    + intros y z Hy Hz. apply H; auto. right; auto.
    + exists s'. simpl. rewrite P'. apply Permutation_middle.
Qed.

Lemma merge_smallest k all all' c o : (0 < k)%nat -> nums all -> nums all' -> k_smallest k all c -> k_smallest k all' o ->
  k_smallest k (all ++ all') (merge N ltb leb k c o).
Proof.
  intros Hk Hn Hn' Hs Ho.
  pose proof Ho as (Hlo & ro & Po & Hro).
  assert (Hno : nums (o ++ ro)) by (eapply nums_perm; [symmetry; exact Po|auto]).
  apply nums_app in Hno as [Hno Hnr].
  assert (H : k_smallest k (all ++ o) (merge N ltb leb k c o)).
  { unfold merge. apply fill_smallest; auto. }
  destruct H as (Hl & rest & P & Hr). split.
  - rewrite Hl, !app_length, Hlo. lia.
  - exists (rest ++ ro). split.
    + rewrite app_assoc, P, <- app_assoc, Po. reflexivity.
    + intros e r He Hin. apply in_app_or in Hin as [Hin|Hin]; auto.
      destruct (Rle_or_lt (key (snd e)) (key (snd r))) as [|Hlt]; auto. exfalso.
      assert (HE : exists s, Permutation (o ++ s) (merge N ltb leb k c o)).
      { apply (perm_incl_part _ _ rest).
        - exists all. rewrite P. apply Permutation_app_comm.
        - intros x y Hx Hy ->. specialize (Hr e y He Hy). specialize (Hro y r Hx Hin). lra. }
      destruct HE as [s Ps]. pose proof (Permutation_length Ps) as HL. rewrite app_length, Hl, app_length in HL.
      assert (length o = k).
      { destruct ro as [|z ro]; [destruct Hin|]. apply Permutation_length in Po. rewrite app_length in Po. simpl in Po. lia. }
      assert (s = []) by (apply length_zero_iff_nil; lia). subst s. rewrite app_nil_r in Ps.
      eapply Permutation_in in He; [|symmetry; exact Ps]. specialize (Hro e r He Hin). lra.
Qed.

Lemma brute_smallest v k threads : (0 < k)%nat -> nums (concat (concat threads)) ->
  k_smallest k (concat (concat threads)) (brute_candidates N ltb leb v k threads).
Proof.
  intros Hk. unfold brute_candidates. destruct threads as [|t ts]; simpl; intros Hn.
  - apply smallest_all; simpl; auto; lia.
  - rewrite concat_app in *. apply nums_app in Hn as [Hn1 Hn2].
    assert (G : forall ts all c, nums all -> nums (concat (concat ts)) -> k_smallest k all c ->
        k_smallest k (all ++ concat (concat ts)) (fold_left (merge N ltb leb k) (map (thread_scan N ltb leb v k) ts) c)).
    { clear - Hc Hk. induction ts as [|t ts IH]; intros all c Hn Hb Hs; simpl.
      - now rewrite app_nil_r.
      - simpl in Hb. rewrite concat_app in *. apply nums_app in Hb as [Hb1 Hb2].
        rewrite app_assoc. apply IH; auto.
        + apply nums_app; auto.
        + apply merge_smallest; auto. apply thread_scan_smallest; auto. }
    apply G; auto. apply thread_scan_smallest; auto.
Qed.

(** the sort *)
Lemma insert_perm x l : Permutation (insert_sorted ltb x l) (x :: l).
Proof.
  induction l as [|y l IH]; simpl; auto. destruct (ltb (snd y) (snd x)); auto.
  rewrite IH. apply perm_swap.
Qed.
Lemma sort_perm l : Permutation (stable_sort ltb l) l.
Proof. induction l as [|x l IH]; simpl; auto. rewrite insert_perm. auto. Qed.
Lemma insert_ascending x l : num (snd x) -> nums l -> ascending key l -> ascending key (insert_sorted ltb x l).
Proof.
  intros Hx Hn Ha. induction l as [|y l IH]; simpl.
  - repeat constructor.
  - inversion Hn; subst. inversion Ha; subst. destruct (ltb (snd y) (snd x)) eqn:E.
    + constructor; [apply IH; auto|]. rewrite Forall_forall in *. intros z Hz.
      eapply Permutation_in in Hz; [|apply insert_perm]. destruct Hz as [<-|Hz]; auto.
      apply lt_k in E; auto. lra.
    + apply lt_kf in E; auto. constructor; auto. constructor; auto.
      rewrite Forall_forall in *. intros z Hz. specialize (H4 z Hz). lra.
Qed.
Lemma sort_ascending l : nums l -> ascending key (stable_sort ltb l).
Proof.
  induction l as [|x l IH]; intros Hn; simpl; [constructor|]. inversion Hn; subst.
  apply insert_ascending; auto. eapply nums_perm; [symmetry; apply sort_perm|auto].
Qed.
Lemma smallest_perm_res k all c c' : Permutation c c' -> k_smallest k all c -> k_smallest k all c'.
Proof.
  intros P (Hl & rest & Q & H). split.
  - now rewrite <- (Permutation_length P).
  - exists rest. split.
    + now rewrite <- P.
    + intros e r He. apply H. eapply Permutation_in; [symmetry; exact P|auto].
Qed.
End Select.
