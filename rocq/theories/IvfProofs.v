(** Proofs about the inverted file index. *)
From Coq Require Import ZArith QArith Qround List Bool Reals Permutation Sorted Lia Lra.
From Verif Require Import Base Par UtilModel TreeSearchModel NnModel NnSpec NnSelectProofs NnHeapProofs IvfModel IvfSpec.
Import ListNotations.
Local Open Scope Z_scope.

(** ** Lists *)
Lemma filter_map {A B} (f : A -> B) (p : B -> bool) l : filter p (map f l) = map f (filter (fun x => p (f x)) l).
Proof. induction l as [|x l IH]; simpl; auto. destruct (p (f x)); simpl; rewrite IH; auto. Qed.
Lemma seq_shift_from a m : seq a m = map (fun i => (a + i)%nat) (seq 0 m).
Proof.
  apply nth_ext with (d := O) (d' := (a + 0)%nat); [now rewrite map_length, !seq_length|].
  intros n Hn. rewrite seq_length in Hn. rewrite (map_nth (fun i => (a + i)%nat)), !seq_nth by auto. lia.
Qed.
Lemma map_nth_seq {A} (d : A) l : map (fun i => nth i l d) (seq 0 (length l)) = l.
Proof.
  induction l as [|x l IH]; simpl; auto. rewrite <- seq_shift, map_map. simpl. now rewrite IH.
Qed.
Lemma filter_seq_ext (p q : nat -> bool) a m :
  (forall i, (a <= i < a + m)%nat -> p i = q i) -> filter p (seq a m) = filter q (seq a m).
Proof. intros H. apply filter_ext_in. intros i Hi. apply in_seq in Hi. apply H; lia. Qed.
Lemma nth_map_seq {A} (f : nat -> A) n d j : (j < n)%nat -> nth j (map f (seq 0 n)) d = f j.
Proof.
  intros H. rewrite nth_indep with (d' := f O) by (rewrite map_length, seq_length; auto).
  rewrite (map_nth f), seq_nth by auto. reflexivity.
Qed.
Lemma nth_repeat_in {A} (x d : A) n j : (j < n)%nat -> nth j (repeat x n) d = x.
Proof. revert j; induction n; intros [|j] H; simpl; try lia; auto. apply IHn; lia. Qed.

Section Index.
Context {T V : Type} (N : arith T) (num : T -> Prop) (key : T -> R) (D : V -> V -> T) (inf : T) (row0 : V).
Hypothesis Hc : compares (lt N) (le N) num key.

Lemma argmin_loop_ok l : forall pre best b,
  (best < length pre)%nat -> nth best pre b = b ->
  num b -> (forall x, In x pre -> num x) -> (forall x, In x l -> num x) ->
  (forall i, (i < length pre)%nat -> (key b <= key (nth i pre b))%R /\ ((i < best)%nat -> (key b < key (nth i pre b))%R)) ->
  let j := argmin_loop N l (length pre) best b in
  (j < length (pre ++ l))%nat /\
  forall i, (i < length (pre ++ l))%nat -> (key (nth j (pre ++ l) b) <= key (nth i (pre ++ l) b))%R /\
     ((i < j)%nat -> (key (nth j (pre ++ l) b) < key (nth i (pre ++ l) b))%R).
Proof.
  induction l as [|x l IH]; intros pre best b Hb Eb Nb Np Nl H; simpl.
  - rewrite app_nil_r. split; auto. intros i Hi. rewrite Eb. apply H; auto.
  - assert (Nx : num x) by (apply Nl; simpl; auto).
    replace (S (length pre)) with (length (pre ++ [x])) by (rewrite app_length; simpl; lia).
    replace (pre ++ x :: l) with ((pre ++ [x]) ++ l) by (rewrite <- app_assoc; reflexivity).
    assert (Np' : forall y, In y (pre ++ [x]) -> num y).
    { intros y Hy. apply in_app_or in Hy as [Hy|[<-|[]]]; auto. }
    destruct (lt N x b) eqn:E.
    + apply (proj1 Hc) in E; auto.
      destruct (IH (pre ++ [x]) (length pre) x) as (J1 & J2); auto.
      * rewrite app_length; simpl; lia.
      * rewrite app_nth2 by lia. now rewrite Nat.sub_diag.
      * intros y Hy; apply Nl; simpl; auto.
      * intros i Hi. rewrite app_length in Hi; simpl in Hi.
        destruct (Nat.eq_dec i (length pre)) as [->|Hne].
        { rewrite app_nth2 by lia. rewrite Nat.sub_diag. simpl. split; [lra|lia]. }
        rewrite app_nth1 by lia. destruct (H i ltac:(lia)) as (G & _).
        rewrite (nth_indep pre x b) by lia. split; intros; lra.
      * split; auto. intros i Hi. specialize (J2 i Hi).
        rewrite (nth_indep _ b x J1), (nth_indep _ b x Hi). exact J2.
    + assert (Hle : (key b <= key x)%R).
      { destruct (Rle_or_lt (key b) (key x)) as [G|G]; auto. apply (proj1 Hc) in G; auto. congruence. }
      apply IH; auto.
      * rewrite app_length; simpl; lia.
      * rewrite app_nth1 by lia. auto.
      * intros y Hy; apply Nl; simpl; auto.
      * intros i Hi. rewrite app_length in Hi; simpl in Hi.
        destruct (Nat.eq_dec i (length pre)) as [->|Hne].
        { rewrite app_nth2 by lia. rewrite Nat.sub_diag. simpl. split; [lra|lia]. }
        rewrite app_nth1 by lia. apply H; lia.
Qed.

Lemma nearest_ok cs r : cs <> [] -> (forall c, In c cs -> num (D r c)) ->
  nearest_first key D row0 cs r (nearest_centroid N D cs r).
Proof.
  intros Hne Hn. unfold nearest_first, nearest_centroid, argmin. destruct cs as [|c cs]; [congruence|]. simpl map.
  assert (Hall : forall x, In x (map (D r) (c :: cs)) -> num x).
  { intros x Hx. apply in_map_iff in Hx as (y & <- & Hy). auto. }
  destruct (argmin_loop_ok (map (D r) cs) [D r c] 0 (D r c)) as (J1 & J2); simpl; auto.
  - apply Hall; simpl; auto.
  - intros x [<-|[]]. apply Hall; simpl; auto.
  - intros x Hx. apply Hall; simpl; auto.
  - intros i Hi. destruct i; [|lia]. split; [lra|lia].
  - simpl app in *. simpl length in *. rewrite map_length in *.
    split; auto. intros i Hi. specialize (J2 i Hi).
    change (D r c :: map (D r) cs) with (map (D r) (c :: cs)) in J2.
    set (j := argmin_loop N (map (D r) cs) 1 0 (D r c)) in *.
    rewrite (nth_indep _ (D r c) (D r row0)) in J2 by (rewrite map_length; simpl; lia).
    rewrite (nth_indep (map (D r) (c :: cs)) (D r c) (D r row0) (n := i)) in J2 by (rewrite map_length; simpl; lia).
    rewrite !(map_nth (D r)) in J2. exact J2.
Qed.

Lemma local_app cs rows new c : local_indices N D row0 cs (rows ++ new) c =
  local_indices N D row0 cs rows c ++ map (fun i => (length rows + i)%nat) (local_indices N D row0 cs new c).
Proof.
  unfold local_indices. rewrite app_length, seq_app, filter_app. f_equal.
  - apply filter_seq_ext. intros i Hi. rewrite app_nth1 by lia. reflexivity.
  - simpl. rewrite seq_shift_from, filter_map. f_equal. apply filter_seq_ext. intros i Hi.
    rewrite app_nth2 by lia. replace (length rows + i - length rows)%nat with i by lia. reflexivity.
Qed.

Lemma store_ok (rows : list V) local old new v : length v = old -> new = (old + length local)%nat ->
  store_rows row0 rows local old new v = v ++ map (fun i => nth i rows row0) local.
Proof.
  intros Hv ->. unfold store_rows. rewrite seq_app, map_app. f_equal.
  - transitivity (map (fun i => nth i v row0) (seq 0 (length v))); [rewrite Hv|apply map_nth_seq]. apply map_ext_in. intros i Hi. apply in_seq in Hi.
    destruct (Nat.ltb_spec i old); [auto|lia].
  - simpl. rewrite seq_shift_from, map_map.
    transitivity (map (fun i => nth i rows row0) (map (fun i => nth i local O) (seq 0 (length local))));
      [|now rewrite map_nth_seq].
    rewrite map_map. apply map_ext_in. intros i Hi. apply in_seq in Hi.
    destruct (Nat.ltb_spec (old + i) old); [lia|]. replace (old + i - old)%nat with i by lia. reflexivity.
Qed.

(** the state between calls that leave the training alone *)
Definition index_ok (s : @ivf V) (nl m : Z) (cs rows : list V) : Prop :=
  model_trained s = true /\ o_n_list (opts s) = nl /\ o_metric (opts s) = m /\ n_list s = nl /\ metric s = m /\
  centroids s = cs /\
  n_index s = Z.of_nat (length rows) /\ length (global_indices s) = Z.to_nat nl /\
  (data_is_added s = false -> rows = [] /\ old_list_sizes s = repeat O (Z.to_nat nl)) /\
  forall j, (j < Z.to_nat nl)%nat ->
    nth j (global_indices s) [] = map Z.of_nat (local_indices N D row0 cs rows j) /\
    nth j (indexed_vectors s) [] = map (fun i => nth i rows row0) (local_indices N D row0 cs rows j) /\
    nth j (list_sizes s) O = length (local_indices N D row0 cs rows j).

Variable kmeans : Z -> Z -> list V.

Lemma train_ok s0 X s2 : train kmeans (fst (set_training_data s0 X)) = (s2, Success) ->
  index_ok s2 (o_n_list (opts s0)) (o_metric (opts s0)) (centroids s2) [] /\
  exists n, centroids s2 = kmeans n (o_n_list (opts s0)).
Proof.
  unfold train, set_training_data. cbn. destruct (_ <? _); intros E; inversion E; subst; clear E. split; [|cbn; eauto].
  unfold index_ok. cbn. repeat split; auto.
  - apply repeat_length.
  - unfold cleared. now rewrite nth_repeat_in.
  - unfold cleared. now rewrite nth_repeat_in.
  - now rewrite nth_repeat_in.
Qed.

Lemma add_ok s nl m cs rows new : index_ok s nl m cs rows ->
  exists s', add_rows N D row0 s new = Some (s', Success) /\ index_ok s' nl m cs (rows ++ new) /\ data_is_added s' = true
    /\ opts s' = opts s.
Proof.
  intros (H1 & H2 & H3 & H4 & H5 & H6 & H7 & H8 & H9 & H10).
  unfold add_rows, options_agree. rewrite H1, H2, H3, H4, H5, !Z.eqb_refl. cbn [negb andb].
  rewrite H8. rewrite Nat.ltb_irrefl. eexists. split; [reflexivity|]. split; [|split; reflexivity].
  unfold index_ok. cbn [model_trained opts n_list metric centroids n_index global_indices data_is_added old_list_sizes
    indexed_vectors list_sizes].
  do 6 (split; [auto; fail|]). split.
  { rewrite H7, app_length. lia. }
  split; [now rewrite map_length, seq_length|]. split; [discriminate|].
  intros j Hj. rewrite !nth_map_seq by auto. destruct (H10 j Hj) as (G1 & G2 & G3).
  rewrite H6, local_app, !map_app, app_length, !map_length. repeat split.
  - unfold push_indices. rewrite G1. f_equal. rewrite map_map. apply map_ext. intros i. rewrite H7. lia.
  - assert (Eold : nth j (if data_is_added s then list_sizes s else old_list_sizes s) O
                     = length (local_indices N D row0 cs rows j)).
    { destruct (data_is_added s); auto. destruct (H9 eq_refl) as (-> & ->). now rewrite nth_repeat_in. }
    rewrite Eold, store_ok.
    + rewrite G2. f_equal.
      * apply map_ext_in. intros i Hi. unfold local_indices in Hi. apply filter_In in Hi as (Hi & _).
        apply in_seq in Hi. rewrite app_nth1 by lia. reflexivity.
      * rewrite map_map. apply map_ext. intros i. rewrite app_nth2 by lia. f_equal. lia.
    + now rewrite G2, map_length.
    + now rewrite G3.
  - now rewrite G3.
Qed.

Lemma run_ok b stale l : forall s nl m cs rows, index_ok s nl m cs rows -> Forall (keeps_training nl m) l ->
  (exists s' sts, run_all N D inf row0 kmeans b stale s l = Some (s', sts)) /\
  forall s' sts, run_all N D inf row0 kmeans b stale s l = Some (s', sts) -> index_ok s' nl m cs (rows ++ added l).
Proof.
  induction l as [|c l IH]; intros s nl m cs rows H Hl.
  - simpl. split; [eauto|]. intros s' sts E. inversion E; subst. now rewrite app_nil_r.
  - inversion Hl as [|? ? Hk Hl']; subst. cbn [run_all].
    assert (G : exists s1 st, run N D inf row0 kmeans b stale s c = Some (s1, st) /\
                 index_ok s1 nl m cs (rows ++ match c with Add r => r | _ => [] end)).
    { destruct c as [o| | |r|k q]; simpl in Hk; try contradiction; cbn [run].
      - rewrite app_nil_r. eexists _, _. split; [reflexivity|]. destruct Hk as (K1 & K2).
        destruct H as (H1 & H2 & H3 & H4). unfold index_ok, set_options. cbn. repeat split; try tauto; apply H4; auto.
      - destruct (add_ok s nl m cs rows r H) as (s1 & E & G & _). eauto.
      - rewrite app_nil_r. destruct H as (H1 & H2 & H3 & H4 & H5 & H6 & H7 & H8 & H').
        unfold kneighbors. rewrite H4, H8, Nat.ltb_irrefl.
        repeat match goal with |- context [if ?x then _ else _] => destruct x end;
          (eexists _, _; split; [reflexivity|]; unfold index_ok; tauto). }
    destruct G as (s1 & st & E & G). rewrite E.
    destruct (IH s1 nl m cs _ G Hl') as ((s2 & sts & E2) & G2). split.
    + rewrite E2. eauto.
    + intros s' sts' E'. rewrite E2 in E'. inversion E'; subst.
      specialize (G2 _ _ E2). cbn [added flat_map]. rewrite app_assoc. exact G2.
Qed.

Lemma index_holds s nl m cs rows : index_ok s nl m cs rows -> 0 < nl -> length cs = Z.to_nat nl ->
  (forall r c, In r rows -> In c cs -> num (D r c)) -> holds key D row0 s rows.
Proof.
  intros (H1 & H2 & H3 & H4 & H5 & H6 & H7 & H8 & H9 & H10) Hnl Hcs Hn. split; auto.
  exists (fun i => nearest_centroid N D cs (nth i rows row0)). rewrite H4, H6. split.
  - intros i Hi. assert (Hf : nearest_first key D row0 cs (nth i rows row0) (nearest_centroid N D cs (nth i rows row0))).
    { apply nearest_ok; [intros ->; simpl in Hcs; lia|]. intros c Hc'. apply Hn; auto. now apply nth_In. }
    split; auto. destruct Hf as (Hf & _). lia.
  - intros j Hj. exact (H10 j Hj).
Qed.

Lemma index_sizes s nl m cs rows : index_ok s nl m cs rows -> length cs = Z.to_nat nl -> sizes_fit s.
Proof.
  intros (H1 & H2 & H3 & H4 & H5 & H6 & H7 & H8 & H9 & H10) Hcs. unfold sizes_fit. rewrite H4, H6. repeat split; auto.
  - destruct (H10 j H) as (G1 & _ & G3). now rewrite G1, G3, map_length.
  - destruct (H10 j H) as (_ & G2 & G3). now rewrite G2, G3, map_length.
Qed.

(** ** Accesses in bounds *)
Definition lists_exist (s : @ivf V) : Prop := model_trained s = true -> length (global_indices s) = Z.to_nat (n_list s).

Lemma run_in_bounds b stale s c : lists_exist s ->
  (exists s' st, run N D inf row0 kmeans b stale s c = Some (s', st)) /\
  forall s' st, run N D inf row0 kmeans b stale s c = Some (s', st) -> st <> Invalid_dimension -> lists_exist s'.
Proof.
  intros H. unfold lists_exist in *. destruct c as [o|X| |r|k q]; cbn [run].
  - split; [eauto|]. intros s' st E _. inversion E; subst. exact H.
  - split; [unfold set_training_data; eauto|]. intros s' st E _. unfold set_training_data in E. inversion E; subst. discriminate.
  - split; [destruct (train kmeans s); eauto|]. intros s' st E Hst. inversion E as [E']; clear E. unfold train in E'.
    destruct (train_data_is_set s); [|inversion E'; subst; exact H].
    destruct (_ <? _); inversion E'; subst; [congruence|]. intros _. cbn. apply repeat_length.
  - unfold add_rows. destruct (model_trained s) eqn:Et; cbn [negb].
    + rewrite (H eq_refl), Nat.ltb_irrefl. destruct (options_agree s); cbn [negb]; split; eauto;
        intros s' st E _; inversion E; subst; cbn; intros _; [now rewrite map_length, seq_length|auto].
    + split; eauto. intros s' st E _. inversion E; subst. congruence.
  - unfold kneighbors. destruct (model_trained s) eqn:Et; cbn [negb].
    + rewrite (H eq_refl), Nat.ltb_irrefl.
      repeat match goal with |- context [if ?x then _ else _] => destruct x end;
        (split; [eauto|]; intros s' st E _; inversion E; subst; auto).
    + split; eauto. intros s' st E _. inversion E; subst. congruence.
Qed.

Lemma runs_in_bounds b stale l : forall s, lists_exist s ->
  (forall l1 l2 s' sts, l = l1 ++ l2 -> run_all N D inf row0 kmeans b stale s l1 = Some (s', sts) -> ~ In Invalid_dimension sts) ->
  exists s' sts, run_all N D inf row0 kmeans b stale s l = Some (s', sts).
Proof.
  induction l as [|c l IH]; intros s H Hl; simpl; [eauto|].
  destruct (run_in_bounds b stale s c H) as ((s1 & st & E) & G). rewrite E.
  assert (Hst : st <> Invalid_dimension).
  { intros ->. apply (Hl [c] l s1 [Invalid_dimension] eq_refl).
    - simpl. now rewrite E.
    - simpl; auto. }
  destruct (IH s1 (G _ _ E Hst)) as (s2 & sts & E2).
  - intros l1 l2 s' sts -> E' Hin. apply (Hl (c :: l1) l2 s' (st :: sts) eq_refl).
    + simpl. now rewrite E, E'.
    + simpl; auto.
  - rewrite E2. eauto.
Qed.
End Index.
