(** Proofs about the search of an inverted file index. *)
From Coq Require Import ZArith QArith Qround List Bool Reals Permutation Sorted Lia Lra.
From Verif Require Import Base Par UtilModel TreeSearchModel NnModel NnSpec NnSelectProofs NnHeapProofs IvfModel IvfSpec IvfProofs.
Import ListNotations.
Local Open Scope Z_scope.

Section Search.
Context {T V : Type} (N : arith T) (num : T -> Prop) (key : T -> R) (D : V -> V -> T) (inf : T) (row0 : V).
Hypothesis Hc : compares (lt N) (le N) num key.

(** ** What lies above the heap is not touched *)
Lemma up_above fuel : forall (c : Z -> Z * T) idx i, 0 <= idx < i -> heapify_up N fuel c idx i = c i.
Proof.
  induction fuel as [|fuel IH]; intros c idx i Hi; simpl; auto.
  destruct (Z.ltb_spec 0 idx); auto. destruct (lt N _ _); auto.
  pose proof (parent_range idx ltac:(lia)). rewrite IH by lia. apply swap_o; lia.
Qed.
Lemma down_above fuel : forall s (c : Z -> Z * T) idx i, 0 <= idx < s -> s <= i -> heapify_down N fuel s c idx i = c i.
Proof.
  induction fuel as [|fuel IH]; intros s c idx i Hi Hs; auto. cbn [heapify_down]. cbv zeta.
  set (l1 := if (2 * idx + 1 <? s) && _ then _ else _).
  assert (H1 : 0 <= l1 < s).
  { subst l1. destruct (Z.ltb_spec (2 * idx + 1) s); cbn [andb]; [|lia]. destruct (lt N _ _); lia. }
  clearbody l1.
  set (l2 := if (2 * idx + 2 <? s) && _ then _ else _).
  assert (H2 : 0 <= l2 < s).
  { subst l2. destruct (Z.ltb_spec (2 * idx + 2) s); cbn [andb]; [|lia]. destruct (lt N _ _); lia. }
  destruct (l2 =? idx); auto. rewrite IH by lia. apply swap_o; lia.
Qed.
Definition filled (h : @heap T) (init : Z -> Z * T) : Prop := forall i, size h <= i -> cells h i = init i.
Lemma insert_filled h init x : 0 <= size h <= capacity h -> 0 < capacity h -> filled h init -> filled (insert N h x) init.
Proof.
  intros Hs Hp Hf i. unfold insert. destruct (Z.ltb_spec (size h) (capacity h)); cbn.
  - intros Hi. rewrite up_above by lia. unfold store_at. destruct (Z.eqb_spec i (size h)); [lia|]. apply Hf; lia.
  - destruct (lt N _ _); cbn; [|apply Hf]. intros Hi. rewrite down_above by lia. unfold store_at.
    destruct (Z.eqb_spec i 0); [lia|]. apply Hf; lia.
Qed.

(** ** The entries offered *)
Definition fits (e : Z * T) : Prop := num (snd e) /\ lt N (snd e) (highest N) = true.

Lemma offer_entry_keeps h seen x init : keeps num key h seen -> filled h init -> fits x ->
  keeps num key (offer_entry N h x) (seen ++ [x]) /\ capacity (offer_entry N h x) = capacity h /\ filled (offer_entry N h x) init.
Proof.
  intros H Hf (Hx & Hh). pose proof H as ((H1 & H2 & H3 & H4) & _). unfold offer_entry. destruct (lt N (snd x) (max_dist N h)) eqn:E.
  - destruct (insert_keeps N num key Hc h seen x H Hx) as (G1 & G2). repeat split; auto; try apply G1.
    apply insert_filled; auto.
  - assert (Es : size h = capacity h).
    { unfold max_dist in E. destruct (Z.ltb_spec (size h) (capacity h)); [congruence|lia]. }
    split; [|split; auto]. apply (skip_keeps N); auto. intros e [<-|[]].
    assert (Nm : num (max_dist N h)).
    { unfold max_dist. destruct (Z.ltb_spec (size h) (capacity h)); [lia|]. apply H3; lia. }
    destruct (Rle_or_lt (key (max_dist N h)) (key (snd x))) as [G|G]; auto.
    apply (proj1 Hc) in G; auto. congruence.
Qed.

Lemma offer_entries_keeps l : forall h seen init, keeps num key h seen -> filled h init -> Forall fits l ->
  keeps num key (offer_entries N h l) (seen ++ l) /\ capacity (offer_entries N h l) = capacity h /\
  filled (offer_entries N h l) init.
Proof.
  induction l as [|x l IH]; intros h seen init H Hf Hl; simpl.
  - rewrite app_nil_r. auto.
  - inversion Hl; subst. destruct (offer_entry_keeps h seen x init H Hf) as (G1 & G2 & G3); auto.
    destruct (IH _ _ init G1 G3) as (K1 & K2 & K3); auto. rewrite <- app_assoc in K1. simpl in K1.
    unfold offer_entries in *. simpl. rewrite K2. auto.
Qed.

Lemma offer_blocks (bs : list (list (Z * T))) : forall h, fold_left (offer_entries N) bs h = offer_entries N h (concat bs).
Proof. induction bs as [|x bs IH]; intros h; simpl; auto. rewrite IH. unfold offer_entries. now rewrite fold_left_app. Qed.

Lemma blocks_concat {A} b : (0 < b)%nat -> forall fuel (l : list A), (length l <= fuel)%nat -> concat (blocks fuel b l) = l.
Proof.
  intros Hb. induction fuel as [|fuel IH]; intros l Hl.
  - destruct l; [reflexivity|simpl in Hl; lia].
  - destruct l as [|x l]; [reflexivity|]. cbn [blocks concat]. rewrite IH; [apply firstn_skipn|].
    rewrite skipn_length. cbn [length] in *. lia.
Qed.

(** ** The lists probed *)
Lemma combine_fits q cs g : (forall c, In c cs -> usable N num inf (D q c)) -> Forall fits (combine g (map (D q) cs)).
Proof.
  intros H. apply Forall_forall. intros [i d] Hin. apply in_combine_r in Hin. apply in_map_iff in Hin as (c & <- & Hin).
  destruct (H c Hin) as (H1 & H2 & _). split; auto.
Qed.

Lemma probes_ok np cs q stale : 0 < np <= Z.of_nat (length cs) -> (forall c, In c cs -> usable N num inf (D q c)) ->
  exists c, k_smallest key (Z.to_nat np) (combine (zrange (Z.of_nat (length cs))) (map (D q) cs)) c /\
    probes N D np cs q stale = map fst c.
Proof.
  intros Hnp Hu. unfold probes. set (es := combine _ _).
  assert (Hes : Forall fits es) by (apply combine_fits; auto).
  assert (Hl : length es = length cs).
  { subst es. rewrite combine_length, zrange_len, map_length. lia. }
  destruct (offer_entries_keeps es (heap_new np (fun i => (stale i, highest N))) [] (fun i => (stale i, highest N))) as (G1 & G2 & G3).
  - apply new_keeps; lia.
  - intros i _. reflexivity.
  - auto.
  - set (h := offer_entries _ _ _) in *. simpl in G1, G2.
    assert (Es : size h = np).
    { rewrite (keeps_size num key h es G1), G2, Hl. cbn. lia. }
    exists (contents h). split.
    + destruct G1 as (_ & G1). rewrite G2 in G1. exact G1.
    + unfold contents. rewrite Es, map_map. reflexivity.
Qed.

(** ** The answer *)
Lemma insert_before x l n : lt N inf (snd x) = false ->
  insert_sorted (lt N) x (l ++ repeat (-1, inf) n) = insert_sorted (lt N) x l ++ repeat (-1, inf) n.
Proof.
  intros H. induction l as [|y l IH]; simpl.
  - destruct n; simpl; [reflexivity|]. now rewrite H.
  - destruct (lt N (snd y) (snd x)); simpl; [now rewrite IH|reflexivity].
Qed.
Lemma sort_filled l n : lt N inf inf = false -> (forall e, In e l -> lt N inf (snd e) = false) ->
  stable_sort (lt N) (l ++ repeat (-1, inf) n) = stable_sort (lt N) l ++ repeat (-1, inf) n.
Proof.
  intros Hi. induction l as [|x l IH]; intros H; simpl.
  - induction n as [|n IH]; simpl; auto. rewrite IH. destruct n; simpl; [reflexivity|]. now rewrite Hi.
  - rewrite IH by (intros; apply H; simpl; auto). apply insert_before. apply H; simpl; auto.
Qed.

Lemma zrange_cut s k : 0 <= s <= k -> zrange k = zrange s ++ map (fun i => s + i) (zrange (k - s)).
Proof.
  intros H. unfold zrange. replace (Z.to_nat k) with (Z.to_nat s + Z.to_nat (k - s))%nat by lia.
  rewrite seq_app, map_app, map_map. f_equal. simpl. rewrite seq_shift_from, map_map. apply map_ext. intros i. lia.
Qed.

Lemma heap_answer h all k : 0 < k -> keeps num key h all -> capacity h = k -> filled h (fun _ => (-1, inf)) ->
  lt N inf inf = false -> (forall e, In e all -> num (snd e) /\ lt N inf (snd e) = false) ->
  answers key inf k all (stable_sort (lt N) (map (cells h) (zrange k))).
Proof.
  intros Hk Hkeep Hcap Hf Hi Hall. pose proof Hkeep as ((H1 & H2 & H3 & H4) & Hsm). rewrite Hcap in *.
  assert (Esz : map (cells h) (zrange k) = contents h ++ repeat (-1, inf) (Z.to_nat (k - size h))).
  { rewrite (zrange_cut (size h) k) by lia. rewrite map_app. f_equal. rewrite map_map.
    transitivity (map (fun _ : Z => (-1, inf)) (zrange (k - size h))).
    - apply map_ext_in. intros i Hin. apply in_zrange in Hin. apply Hf. lia.
    - rewrite <- (zrange_len (k - size h)). generalize (zrange (k - size h)) as l.
      induction l as [|x l IHl]; simpl; [reflexivity|]. now rewrite IHl. }
  assert (Hin : forall e, In e (contents h) -> In e all).
  { intros e He. destruct Hsm as (_ & rest & P & _). eapply Permutation_in; [exact P|]. apply in_or_app; auto. }
  rewrite Esz, sort_filled; auto; [|intros e He; apply Hall; auto].
  exists (stable_sort (lt N) (contents h)).
  assert (P : Permutation (contents h) (stable_sort (lt N) (contents h))) by (symmetry; apply sort_perm).
  repeat split.
  - destruct Hsm as (Hl & rest & Pr & Hr). rewrite <- (Permutation_length P). exact Hl.
  - destruct Hsm as (Hl & rest & Pr & Hr). exists rest. split.
    + rewrite <- P. exact Pr.
    + intros e r He Hr'. apply Hr; auto. eapply Permutation_in; [symmetry; exact P|auto].
  - apply (sort_ascending (lt N) (le N) num key Hc). apply Forall_forall. intros e He. apply Hall; auto.
  - rewrite <- (Permutation_length P), contents_length by lia. do 2 f_equal. lia.
Qed.

Lemma search_ok (s : @ivf V) np k b stale q : sizes_fit s -> 0 < np <= n_list s -> 0 < k -> (0 < b)%nat ->
  lt N inf inf = false ->
  (forall c, In c (centroids s) -> usable N num inf (D q c)) ->
  (forall j r, (j < Z.to_nat (n_list s))%nat -> In r (nth j (indexed_vectors s) []) -> usable N num inf (D q r)) ->
  exists c, k_smallest key (Z.to_nat np) (combine (zrange (n_list s)) (map (D q) (centroids s))) c /\
    answers key inf k (contents_of D s (map fst c) q) (search N D inf s np k b stale q).
Proof.
  intros (F1 & F2 & F3) Hnp Hk Hb Hi Hu1 Hu2.
  destruct (probes_ok np (centroids s) q stale) as (c & Hs & Ec); auto; [lia|].
  exists c. replace (Z.of_nat (length (centroids s))) with (n_list s) in Hs by lia. split; auto.
  unfold search. rewrite Ec. set (p := map fst c).
  set (entries := fun j => if existsb (Z.eqb (Z.of_nat j)) p
                           then combine (nth j (global_indices s) []) (map (D q) (nth j (indexed_vectors s) [])) else []).
  set (visit := fun h j => _).
  assert (G : forall js h seen, (forall j, In j js -> (j < Z.to_nat (n_list s))%nat) ->
    keeps num key h seen -> filled h (fun _ => (-1, inf)) ->
    keeps num key (fold_left visit js h) (seen ++ flat_map entries js) /\ capacity (fold_left visit js h) = capacity h /\
    filled (fold_left visit js h) (fun _ => (-1, inf))).
  { induction js as [|j js IH]; intros h seen Hjs Hh Hf; simpl.
    - rewrite app_nil_r. auto.
    - assert (Ev : visit h j = offer_entries N h (entries j)).
      { unfold visit, entries. destruct (existsb _ p); [|reflexivity]. rewrite offer_blocks, blocks_concat; auto.
        unfold list_entries. rewrite combine_length, map_length. destruct (F3 j (Hjs j (or_introl eq_refl))) as (E1 & E2). lia. }
      rewrite Ev. destruct (offer_entries_keeps (entries j) h seen (fun _ => (-1, inf)) Hh Hf) as (K1 & K2 & K3).
      { unfold entries. destruct (existsb _ p); [|constructor]. apply combine_fits. intros r Hr. apply (Hu2 j r); auto.
        apply Hjs; simpl; auto. }
      destruct (IH _ _ (fun i Hi => Hjs i (or_intror Hi)) K1 K3) as (L1 & L2 & L3). rewrite <- app_assoc in L1.
      rewrite L2. auto. }
  destruct (G (seq 0 (Z.to_nat (n_list s))) (heap_new k (fun _ => (-1, inf))) []) as (G1 & G2 & G3).
  { intros j Hj. apply in_seq in Hj. lia. }
  { apply new_keeps; lia. }
  { intros i _. reflexivity. }
  simpl in G1, G2. apply heap_answer; auto.
  intros e He. apply in_flat_map in He as (j & Hj & He). apply in_seq in Hj. unfold entries in He.
  destruct (existsb _ p); [|contradiction]. destruct e as [i d]. apply in_combine_r in He.
  apply in_map_iff in He as (r & <- & Hr). destruct (Hu2 j r ltac:(lia) Hr) as (U1 & _ & U3). split; auto.
Qed.

(** ** Every list probed *)
Lemma all_probed (s : @ivf V) q c : length (centroids s) = Z.to_nat (n_list s) ->
  k_smallest key (Z.to_nat (n_list s)) (combine (zrange (n_list s)) (map (D q) (centroids s))) c ->
  forall j, (j < Z.to_nat (n_list s))%nat -> existsb (Z.eqb (Z.of_nat j)) (map fst c) = true.
Proof.
  intros Hl (Hlen & rest & P & _) j Hj.
  set (es := combine _ _) in *.
  assert (Hes : length es = Z.to_nat (n_list s)) by (subst es; rewrite combine_length, zrange_len, map_length; lia).
  rewrite Hes, Nat.min_id in Hlen.
  assert (rest = []).
  { apply Permutation_length in P. rewrite app_length in P. destruct rest; auto. simpl in P. lia. }
  subst rest. rewrite app_nil_r in P.
  apply existsb_exists. exists (Z.of_nat j). split; [|apply Z.eqb_refl].
  eapply Permutation_in; [apply Permutation_map; symmetry; exact P|].
  assert (Ef : forall (a : list Z) (b : list T), length a = length b -> map fst (combine a b) = a).
  { induction a as [|x a IHa]; intros [|y b] H; simpl in *; try discriminate; auto. now rewrite IHa by lia. }
  subst es. rewrite Ef by (rewrite zrange_len, map_length; lia). apply in_zrange. lia.
Qed.

Lemma combine_maps {A} (f : A -> Z) (g : A -> T) l : combine (map f l) (map g l) = map (fun x => (f x, g x)) l.
Proof. induction l as [|x l IH]; simpl; auto. now rewrite IH. Qed.

Lemma buckets_permutation (home : nat -> nat) (n : nat) (l : list nat) : (forall i, In i l -> (home i < n)%nat) ->
  Permutation (flat_map (fun j => filter (fun i => Nat.eqb (home i) j) l) (seq 0 n)) l.
Proof.
  induction l as [|x l IH]; intros H.
  - simpl. induction (seq 0 n); simpl; auto.
  - assert (Hx := H x (or_introl eq_refl)).
    assert (E : exists a b, seq 0 n = a ++ home x :: b).
    { apply in_split. apply in_seq. lia. }
    destruct E as (a & b & E).
    assert (Nd : NoDup (a ++ home x :: b)) by (rewrite <- E; apply seq_NoDup).
    assert (Skip : forall js, ~ In (home x) js ->
      flat_map (fun j => filter (fun i => Nat.eqb (home i) j) (x :: l)) js = flat_map (fun j => filter (fun i => Nat.eqb (home i) j) l) js).
    { induction js as [|j js IHj]; intros Hn; simpl; auto. destruct (Nat.eqb_spec (home x) j) as [Ej|_].
      - exfalso. apply Hn. left. symmetry. exact Ej.
      - f_equal. apply IHj. intros G. apply Hn. right. exact G. }
    pose proof (NoDup_remove_2 _ _ _ Nd) as Hni.
    specialize (IH (fun i Hi => H i (or_intror Hi))). rewrite E in IH |- *.
    rewrite flat_map_app in IH |- *. cbn [flat_map] in IH |- *.
    rewrite (Skip a) by (intros G; apply Hni; apply in_or_app; auto).
    rewrite (Skip b) by (intros G; apply Hni; apply in_or_app; auto).
    cbn [filter]. rewrite Nat.eqb_refl. cbn [app]. rewrite <- Permutation_middle. constructor. exact IH.
Qed.

Lemma contents_all (s : @ivf V) rows q c : holds key D row0 s rows -> length (centroids s) = Z.to_nat (n_list s) ->
  k_smallest key (Z.to_nat (n_list s)) (combine (zrange (n_list s)) (map (D q) (centroids s))) c ->
  Permutation (contents_of D s (map fst c) q) (distances D row0 q rows).
Proof.
  intros (_ & home & Hh & Hj) Hl Hc'. unfold contents_of, distances.
  transitivity (map (fun i => (Z.of_nat i, D q (nth i rows row0)))
    (flat_map (fun j => filter (fun i => Nat.eqb (home i) j) (seq 0 (length rows))) (seq 0 (Z.to_nat (n_list s))))).
  - apply Permutation_refl'. 
    assert (G : forall js, (forall j, In j js -> (j < Z.to_nat (n_list s))%nat) ->
      flat_map (fun j => if existsb (Z.eqb (Z.of_nat j)) (map fst c)
                         then combine (nth j (global_indices s) []) (map (D q) (nth j (indexed_vectors s) [])) else []) js =
      map (fun i => (Z.of_nat i, D q (nth i rows row0)))
        (flat_map (fun j => filter (fun i => Nat.eqb (home i) j) (seq 0 (length rows))) js)).
    { induction js as [|j js IH]; intros Hin; [reflexivity|]. cbn [flat_map]. rewrite map_app, IH by (intros; apply Hin; right; auto).
      f_equal. specialize (Hin j (or_introl eq_refl)). rewrite (all_probed s q c Hl Hc' j) by lia.
      destruct (Hj j Hin) as (E1 & E2 & _). rewrite E1, E2, map_map. apply combine_maps. }
    apply G. intros j Hin. apply in_seq in Hin. lia.
  - apply Permutation_map, buckets_permutation. intros i Hi. apply in_seq in Hi. apply Hh; lia.
Qed.

Lemma answers_perm k all all' res : Permutation all all' -> answers key inf k all res -> answers key inf k all' res.
Proof.
  intros P (found & (H1 & rest & H2 & H3) & H4 & H5). exists found. repeat split; auto.
  - now rewrite <- (Permutation_length P).
  - exists rest. split; auto. now rewrite H2.
Qed.
Lemma answers_full k all res : k <= Z.of_nat (length all) -> answers key inf k all res ->
  k_smallest key (Z.to_nat k) all res /\ ascending key res.
Proof.
  intros Hk (found & H1 & H2 & ->). pose proof H1 as (Hl & _).
  replace (Z.to_nat k - length found)%nat with O by lia. simpl. rewrite app_nil_r. auto.
Qed.
End Search.
