(** The heap of the tree searches. *)
From Coq Require Import ZArith List Bool Reals Permutation Sorted Lia Lra.
From Verif Require Import Base Par UtilModel NnModel NnSpec NnSelectProofs.
Import ListNotations.
Local Open Scope Z_scope.

Lemma parent_range i : 0 < i -> 0 <= (i - 1) / 2 < i.
Proof. intros H. split; [apply Z.div_pos; lia|apply Z.div_lt_upper_bound; lia]. Qed.
Lemma parent_child i j : 0 < i -> (i - 1) / 2 = j <-> i = 2 * j + 1 \/ i = 2 * j + 2.
Proof.
  intros H. split; intros E.
  - assert (i - 1 = 2 * j + (i - 1) mod 2) by (subst j; apply Z.div_mod; lia).
    pose proof (Z.mod_pos_bound (i - 1) 2). lia.
  - destruct E as [-> | ->].
    + replace (2 * j + 1 - 1) with (j * 2) by lia. apply Z.div_mul; lia.
    + replace (2 * j + 2 - 1) with (1 + j * 2) by lia. rewrite Z.div_add; [reflexivity|lia].
Qed.

Section Heap.
Context {T : Type} (N : arith T) (num : T -> Prop) (key : T -> R).
Hypothesis Hc : compares (lt N) (le N) num key.
Notation kk c i := (key (snd (c i))).

Definition cell_nums (c : Z -> Z * T) (s : Z) : Prop := forall i, 0 <= i < s -> num (snd (c i)).
Definition heap_order (c : Z -> Z * T) (s : Z) : Prop := forall i, 0 < i < s -> (kk c i <= kk c ((i - 1) / 2)%Z)%R.

Lemma swap_i (c : Z -> Z * T) i j : swap c i j i = c j.
Proof.
  unfold swap, store_at. destruct (Z.eqb_spec i j) as [->|]; auto. now rewrite Z.eqb_refl.
Qed.
Lemma swap_j (c : Z -> Z * T) i j : swap c i j j = c i.
Proof. unfold swap, store_at. now rewrite Z.eqb_refl. Qed.
Lemma swap_o (c : Z -> Z * T) i j l : l <> i -> l <> j -> swap c i j l = c l.
Proof.
  intros. unfold swap, store_at. destruct (Z.eqb_spec l j); try congruence. destruct (Z.eqb_spec l i); congruence.
Qed.
Definition tau (i j l : Z) : Z := if l =? i then j else if l =? j then i else l.
Lemma swap_tau (c : Z -> Z * T) i j l : swap c i j l = c (tau i j l).
Proof.
  unfold tau. destruct (Z.eqb_spec l i) as [->|]; [apply swap_i|].
  destruct (Z.eqb_spec l j) as [->|]; [apply swap_j|]. apply swap_o; auto.
Qed.
Lemma tau_tau i j l : tau i j (tau i j l) = l.
Proof.
  unfold tau. destruct (Z.eqb_spec l i) as [->|].
  - destruct (Z.eqb_spec j i) as [->|]; auto. now rewrite Z.eqb_refl.
  - destruct (Z.eqb_spec l j) as [->|].
    + now rewrite Z.eqb_refl.
    + destruct (Z.eqb_spec l i); try congruence. destruct (Z.eqb_spec l j); congruence.
Qed.
Lemma tau_range s i j l : 0 <= i < s -> 0 <= j < s -> 0 <= l < s -> 0 <= tau i j l < s.
Proof. intros. unfold tau. destruct (l =? i); auto. destruct (l =? j); auto. Qed.
Lemma swap_perm (c : Z -> Z * T) s i j : 0 <= i < s -> 0 <= j < s ->
  Permutation (map (swap c i j) (zrange s)) (map c (zrange s)).
Proof.
  intros Hi Hj.
  rewrite (map_ext _ (fun l => c (tau i j l))) by (intros; apply swap_tau).
  rewrite <- (map_map (tau i j) c). apply Permutation_map. apply NoDup_Permutation.
  - apply FinFun.Injective_map_NoDup; [|apply zrange_nodup].
    intros a b E. rewrite <- (tau_tau i j a), E. apply tau_tau.
  - apply zrange_nodup.
  - intros l. rewrite in_map_iff. split.
    + intros (y & <- & Hy). apply in_zrange in Hy. apply in_zrange. apply tau_range; auto.
    + intros Hl. exists (tau i j l). split; [apply tau_tau|]. apply in_zrange in Hl. apply in_zrange, tau_range; auto.
Qed.

Lemma cell_nums_perm c c' s : Permutation (map c (zrange s)) (map c' (zrange s)) -> cell_nums c s -> cell_nums c' s.
Proof.
  intros P H i Hi.
  assert (In (c' i) (map c (zrange s))).
  { eapply Permutation_in; [symmetry; exact P|]. apply in_map, in_zrange; auto. }
  apply in_map_iff in H0 as (j & <- & Hj). apply H. apply in_zrange; auto.
Qed.
Lemma swap_nums c s i j : 0 <= i < s -> 0 <= j < s -> cell_nums c s -> cell_nums (swap c i j) s.
Proof. intros Hi Hj. apply cell_nums_perm. symmetry. apply swap_perm; auto. Qed.

Lemma up_ok s fuel : forall c idx, 0 <= idx < s -> (Z.to_nat idx < fuel)%nat -> cell_nums c s ->
  (forall i, 0 < i < s -> i <> idx -> (kk c i <= kk c ((i - 1) / 2)%Z)%R) ->
  (forall i, 0 < i < s -> (i - 1) / 2 = idx -> 0 < idx -> (kk c i <= kk c ((idx - 1) / 2)%Z)%R) ->
  heap_order (heapify_up N fuel c idx) s /\
  Permutation (map (heapify_up N fuel c idx) (zrange s)) (map c (zrange s)).
Proof.
  induction fuel as [|fuel IH]; intros c idx Hi Hf Hn Ha Hb; [lia|].
  cbn [heapify_up]. destruct (Z.ltb_spec 0 idx) as [Hp|Hp].
  2:{ split; auto. intros i Hi'. apply Ha; auto; lia. }
  cbv zeta. pose proof (parent_range idx Hp) as Hpr. set (pa := (idx - 1) / 2) in *.
  destruct (lt N (snd (c pa)) (snd (c idx))) eqn:E.
  2:{ split; auto. intros i Hi'. destruct (Z.eq_dec i idx) as [->|]; [|apply Ha; auto].
      apply (lt_kf _ _ num key Hc) in E; auto; apply Hn; lia. }
  apply (lt_k _ _ num key Hc) in E; try (apply Hn; lia).
  destruct (IH (swap c idx pa) pa) as [H1 H2]; try lia.
  - apply swap_nums; auto; lia.
  - intros i Hi' Hne. pose proof (parent_range i (proj1 Hi')) as Hpi.
    destruct (Z.eq_dec i idx) as [->|Hni].
    + fold pa. rewrite swap_i, swap_j. lra.
    + rewrite (swap_o c idx pa i) by auto.
      destruct (Z.eq_dec ((i - 1) / 2) idx) as [Ep|Ep].
      * rewrite Ep, swap_i. apply Hb; auto.
      * destruct (Z.eq_dec ((i - 1) / 2) pa) as [Eq|Eq].
        -- rewrite Eq, swap_j. pose proof (Ha i Hi' Hni) as G. rewrite Eq in G. lra.
        -- rewrite swap_o by auto. apply Ha; auto.
  - intros i Hi' Ei Hpp. pose proof (parent_range pa Hpp) as Hppr.
    rewrite (swap_o c idx pa ((pa - 1) / 2)) by lia.
    assert (Gp : (kk c pa <= kk c ((pa - 1) / 2)%Z)%R) by (apply Ha; lia).
    destruct (Z.eq_dec i idx) as [->|Hni].
    + rewrite swap_i. exact Gp.
    + pose proof (parent_range i (proj1 Hi')). rewrite swap_o by lia.
      pose proof (Ha i Hi' Hni) as G. rewrite Ei in G. lra.
  - split; auto. rewrite H2. apply swap_perm; lia.
Qed.

Lemma down_ok s fuel : forall c idx, 0 <= idx < s -> (Z.to_nat (s - idx) < fuel)%nat -> cell_nums c s ->
  (forall i, 0 < i < s -> (i - 1) / 2 <> idx -> (kk c i <= kk c ((i - 1) / 2)%Z)%R) ->
  (forall i, 0 < i < s -> (i - 1) / 2 = idx -> 0 < idx -> (kk c i <= kk c ((idx - 1) / 2)%Z)%R) ->
  heap_order (heapify_down N fuel s c idx) s /\
  Permutation (map (heapify_down N fuel s c idx) (zrange s)) (map c (zrange s)).
Proof.
  induction fuel as [|fuel IH]; intros c idx Hi Hf Hn Ha Hb; [lia|].
  cbn [heapify_down]. cbv zeta.
  set (la := if (2 * idx + 1 <? s) && lt N (snd (c idx)) (snd (c (2 * idx + 1))) then 2 * idx + 1 else idx).
  set (lb := if (2 * idx + 2 <? s) && lt N (snd (c la)) (snd (c (2 * idx + 2))) then 2 * idx + 2 else la).
  assert (HA : (la = idx \/ la = 2 * idx + 1) /\ la < s /\ (kk c idx <= kk c la)%R /\
               (2 * idx + 1 < s -> (kk c (2 * idx + 1)%Z <= kk c la)%R)).
  { unfold la. destruct (Z.ltb_spec (2 * idx + 1) s) as [Hl|Hl]; cbn [andb].
    - destruct (lt N (snd (c idx)) (snd (c (2 * idx + 1)))) eqn:E.
      + apply (lt_k _ _ num key Hc) in E; try (apply Hn; lia). repeat split; try lia; intros; lra.
      + apply (lt_kf _ _ num key Hc) in E; try (apply Hn; lia). repeat split; try lia; intros; lra.
    - repeat split; try lia; try lra. }
  assert (HB : (lb = la \/ lb = 2 * idx + 2) /\ lb < s /\ (kk c la <= kk c lb)%R /\
               (2 * idx + 2 < s -> (kk c (2 * idx + 2)%Z <= kk c lb)%R)).
  { unfold lb. destruct (Z.ltb_spec (2 * idx + 2) s) as [Hl|Hl]; cbn [andb].
    - destruct (lt N (snd (c la)) (snd (c (2 * idx + 2)))) eqn:E.
      + apply (lt_k _ _ num key Hc) in E; try (apply Hn; lia). repeat split; try lia; intros; lra.
      + apply (lt_kf _ _ num key Hc) in E; try (apply Hn; lia). repeat split; try lia; intros; lra.
    - repeat split; try lia; try lra. }
  clearbody la lb. destruct HA as (HA1 & HA2 & HA3 & HA4). destruct HB as (HB1 & HB2 & HB3 & HB4).
  assert (Hch : forall i, 0 < i < s -> (i - 1) / 2 = idx -> (kk c i <= kk c lb)%R).
  { intros i Hi' Ei. apply parent_child in Ei; [|lia]. destruct Ei as [-> | ->].
    - apply Rle_trans with (kk c la); auto. apply HA4; lia.
    - apply HB4; lia. }
  destruct (Z.eqb_spec lb idx) as [->|Hne].
  - split; auto. intros i Hi'. destruct (Z.eq_dec ((i - 1) / 2) idx) as [E|E]; [|apply Ha; auto].
    rewrite E. apply Hch; auto.
  - assert (Hlb : lb = 2 * idx + 1 \/ lb = 2 * idx + 2) by lia.
    assert (Hpl : (lb - 1) / 2 = idx) by (apply parent_child; lia).
    destruct (IH (swap c idx lb) lb) as [H1 H2]; try lia.
    + apply swap_nums; auto; lia.
    + intros i Hi' Hpi. destruct (Z.eq_dec i lb) as [->|Hil].
      * rewrite Hpl, swap_i, swap_j. lra.
      * destruct (Z.eq_dec ((i - 1) / 2) idx) as [E|E].
        -- rewrite E, swap_i. assert (i <> idx) by (pose proof (parent_range i); lia).
           rewrite swap_o by auto. apply Hch; auto.
        -- rewrite (swap_o c idx lb ((i - 1) / 2)) by auto.
           destruct (Z.eq_dec i idx) as [->|Hii].
           ++ rewrite swap_i. apply Hb; lia.
           ++ rewrite swap_o by auto. apply Ha; auto.
    + intros i Hi' Ei Hp. rewrite Hpl, swap_i. pose proof (parent_range i (proj1 Hi')). rewrite swap_o by lia.
      assert (Hni : (i - 1) / 2 <> idx) by lia. pose proof (Ha i Hi' Hni) as G. rewrite Ei in G. exact G.
    + split; auto. rewrite H2. apply swap_perm; lia.
Qed.

Lemma root_max_ok c s : heap_order c s -> forall i, 0 <= i < s -> (kk c i <= kk c 0%Z)%R.
Proof.
  intros H i [Hi Hs]. revert Hs. pattern i. apply Zlt_0_ind; auto. clear i Hi.
  intros i IH Hi Hs. destruct (Z.eq_dec i 0) as [->|]; [lra|].
  pose proof (parent_range i). apply Rle_trans with (kk c ((i - 1) / 2)%Z).
  - apply H; lia.
  - apply IH; lia.
Qed.

(** a heap between searches *)
Definition heap_ok (h : @heap T) : Prop :=
  0 <= size h <= capacity h /\ 0 < capacity h /\ cell_nums (cells h) (size h) /\ heap_order (cells h) (size h).

Lemma zrange_S s : 0 <= s -> zrange (s + 1) = zrange s ++ [s].
Proof.
  intros. unfold zrange. rewrite Z2Nat.inj_add, seq_app by lia. rewrite map_app. f_equal. cbn [seq map Z.to_nat Pos.to_nat]. change (Pos.to_nat 1) with 1%nat. cbn [seq map]. f_equal. lia.
Qed.
Lemma contents_length (h : @heap T) : 0 <= size h -> length (contents h) = Z.to_nat (size h).
Proof. intros. unfold contents. rewrite map_length, zrange_len; auto. Qed.
Lemma store_map (c : Z -> Z * T) s x : map (store_at c s x) (zrange s) = map c (zrange s).
Proof.
  apply map_ext_in. intros i Hi. apply in_zrange in Hi. unfold store_at. destruct (Z.eqb_spec i s); [lia|auto].
Qed.

Lemma insert_new_ok (h : @heap T) x : heap_ok h -> num (snd x) -> size h < capacity h ->
  heap_ok (insert N h x) /\ capacity (insert N h x) = capacity h /\ size (insert N h x) = size h + 1 /\
  Permutation (contents (insert N h x)) (contents h ++ [x]).
Proof.
  intros (H1 & H2 & H3 & H4) Hx Hs. unfold insert. destruct (Z.ltb_spec (size h) (capacity h)); [|lia].
  cbn [cells size capacity].
  set (c := store_at (cells h) (size h) x).
  assert (Hc1 : forall i, 0 <= i < size h -> c i = cells h i).
  { intros i Hi. unfold c, store_at. destruct (Z.eqb_spec i (size h)); [lia|auto]. }
  assert (Hc2 : c (size h) = x) by (unfold c, store_at; now rewrite Z.eqb_refl).
  assert (Hn : cell_nums c (size h + 1)).
  { intros i Hi. destruct (Z.eq_dec i (size h)) as [->|]; [now rewrite Hc2|]. rewrite Hc1 by lia. apply H3; lia. }
  destruct (up_ok (size h + 1) (Z.to_nat (size h) + 1) c (size h)) as [Ho Hp]; auto; try lia.
  - intros i Hi Hne. pose proof (parent_range i). rewrite !Hc1 by lia. apply H4; lia.
  - intros i Hi E. pose proof (parent_range i). lia.
  - assert (HP : Permutation (contents (Heap (heapify_up N (Z.to_nat (size h) + 1) c (size h)) (size h + 1) (capacity h)))
                   (contents h ++ [x])).
    { unfold contents. cbn [cells size]. rewrite Hp, zrange_S, map_app by lia.
      unfold c. rewrite store_map. cbn [map]. fold c. rewrite Hc2. reflexivity. }
    repeat split; auto; cbn [cells size capacity]; try lia.
    eapply cell_nums_perm; [symmetry; exact Hp|exact Hn].
Qed.

Lemma insert_full_ok (h : @heap T) x : heap_ok h -> num (snd x) -> size h = capacity h -> 
  heap_ok (insert N h x) /\ capacity (insert N h x) = capacity h /\ size (insert N h x) = size h /\
  exists y, In y (contents h ++ [x]) /\ Permutation (contents (insert N h x) ++ [y]) (contents h ++ [x]) /\
    forall e, In e (contents (insert N h x)) -> (key (snd e) <= key (snd y))%R.
Proof.
  intros (H1 & H2 & H3 & H4) Hx Hs. unfold insert. destruct (Z.ltb_spec (size h) (capacity h)); [lia|].
  assert (Hmax : forall e, In e (contents h) -> (key (snd e) <= kk (cells h) 0%Z)%R).
  { intros e He. apply in_map_iff in He as (i & <- & Hi). apply (root_max_ok (cells h) (size h)); auto. apply in_zrange; auto. }
  destruct (lt N (snd x) (snd (cells h 0))) eqn:E.
  - cbn [cells size capacity]. apply (lt_k _ _ num key Hc) in E; auto; try (apply H3; lia).
    set (c := store_at (cells h) 0 x).
    assert (Hc1 : forall i, i <> 0 -> c i = cells h i).
    { intros i Hi. unfold c, store_at. destruct (Z.eqb_spec i 0); [lia|auto]. }
    assert (Hc2 : c 0 = x) by reflexivity.
    assert (Hn : cell_nums c (size h)).
    { intros i Hi. destruct (Z.eq_dec i 0) as [->|]; [now rewrite Hc2|]. rewrite Hc1 by lia. apply H3; lia. }
    destruct (down_ok (size h) (Z.to_nat (size h) + 1) c 0) as [Ho Hp]; auto; try lia.
    { intros i Hi Hne. pose proof (parent_range i). rewrite !Hc1 by lia. apply H4; lia. }
    set (h' := Heap (heapify_down N (Z.to_nat (size h) + 1) (size h) c 0) (size h) (capacity h)).
    assert (Ez : zrange (size h) = 0 :: map Z.succ (zrange (size h - 1))).
    { unfold zrange. replace (Z.to_nat (size h)) with (S (Z.to_nat (size h - 1))) by lia.
      cbn [seq map]. f_equal. rewrite map_map. rewrite <- seq_shift, map_map. apply map_ext. intros; lia. }
    assert (Hpc : Permutation (contents h' ++ [cells h 0]) (contents h ++ [x])).
    { unfold contents, h'. cbn [cells size]. rewrite Hp, Ez. cbn [map]. rewrite Hc2.
      rewrite (map_ext_in c (cells h)).
      2:{ intros i Hi. apply in_map_iff in Hi as (j & <- & Hj). apply in_zrange in Hj. apply Hc1. lia. }
      cbn [app]. rewrite <- (Permutation_cons_append _ x). rewrite <- (Permutation_cons_append _ (cells h 0)). apply perm_swap. }
    split; [|split; [reflexivity|split; [reflexivity|]]].
    { unfold heap_ok, h'; cbn [cells size capacity]. repeat split; auto; try lia.
      eapply cell_nums_perm; [symmetry; exact Hp|exact Hn]. }
    { exists (cells h 0). split; [|split; auto].
      * apply in_or_app. left. unfold contents. apply in_map, in_zrange. lia.
      * intros e He. assert (Hin : In e (contents h ++ [x])).
        { eapply Permutation_in; [exact Hpc|]. apply in_or_app; auto. }
        apply in_app_or in Hin as [Hin|[<-|[]]]; auto. lra. }
  - apply (lt_kf _ _ num key Hc) in E; auto; try (apply H3; lia).
    repeat split; auto; try lia. exists x. split; [apply in_or_app; right; left; auto|]. split; auto.
    intros e He. apply Hmax in He. lra.
Qed.

(** The heap keeps the smallest of all the entries seen. *)
Definition keeps (h : @heap T) (seen : list (Z * T)) : Prop :=
  heap_ok h /\ k_smallest key (Z.to_nat (capacity h)) seen (contents h).

Lemma new_keeps k c : 0 < k -> keeps (heap_new k c) [].
Proof.
  intros Hk. split.
  - repeat split; cbn; try lia; intros i Hi; cbn in *; lia.
  - apply smallest_all; simpl; auto; lia.
Qed.

Lemma keeps_size h seen : keeps h seen -> size h = Z.min (capacity h) (Z.of_nat (length seen)).
Proof. intros ((H1 & _) & H & _). rewrite contents_length in H by lia. lia. Qed.

Lemma insert_keeps h seen x : keeps h seen -> num (snd x) ->
  keeps (insert N h x) (seen ++ [x]) /\ capacity (insert N h x) = capacity h.
Proof.
  intros [Hh Hs] Hx. pose proof Hh as (H1 & H2 & H3 & H4).
  destruct (Z.eq_dec (size h) (capacity h)) as [E|E].
  - destruct (insert_full_ok h x Hh Hx E) as (G1 & G2 & G3 & y & Hy & P & Hle).
    split; auto. split; auto. rewrite G2.
    destruct Hs as (Hl & rest & Pr & Hr). split.
    + apply Permutation_length in P. rewrite !app_length in P. rewrite app_length. simpl in *.
      rewrite contents_length in * by lia. lia.
    + exists (y :: rest). split.
      * change (y :: rest) with ([y] ++ rest). rewrite app_assoc, P, <- app_assoc, (Permutation_app_comm [x]), app_assoc, Pr.
        reflexivity.
      * intros e r He [<-|Hin]; auto.
        assert (Hin' : In e (contents h ++ [x])) by (eapply Permutation_in; [exact P|apply in_or_app; auto]).
        apply in_app_or in Hin' as [Hin'|[<-|[]]]; auto.
        (* the new entry: not above some entry of the old contents *)
        apply in_app_or in Hy as [Hy|[<-|[]]].
        -- specialize (Hle _ He). specialize (Hr y r Hy Hin). lra.
        -- (* y = x: every old entry is kept and below x; x itself kept too *)
           assert (Hx2 : In x (contents h)).
           { assert (P2 : Permutation (contents (insert N h x)) (contents h)).
             { apply (Permutation_app_inv_r [x]). exact P. }
             eapply Permutation_in; [exact P2|auto]. }
           apply Hr; auto.
  - destruct (insert_new_ok h x Hh Hx) as (G1 & G2 & G3 & P); try lia.
    split; auto. split; auto. rewrite G2.
    assert (Pc : Permutation (contents h) seen).
    { apply (smallest_few key (Z.to_nat (capacity h))); auto. rewrite contents_length by lia. lia. }
    apply smallest_all.
    + rewrite app_length, <- (Permutation_length Pc), contents_length by lia. simpl. lia.
    + rewrite P. now apply Permutation_app_tail.
Qed.

(** entries that are not below the largest kept one may be left out *)
Lemma skip_keeps h seen l : keeps h seen -> size h = capacity h ->
  (forall e, In e l -> (key (max_dist N h) <= key (snd e))%R) -> keeps h (seen ++ l).
Proof.
  intros [Hh (Hl & rest & P & Hr)] E H. split; auto. pose proof Hh as (H1 & H2 & H3 & H4). split.
  - rewrite Hl, app_length. rewrite contents_length in Hl by lia. lia.
  - exists (rest ++ l). split.
    + rewrite app_assoc, P. reflexivity.
    + intros e r He Hin. apply in_app_or in Hin as [Hin|Hin]; auto.
      apply Rle_trans with (key (max_dist N h)); auto.
      unfold max_dist. destruct (Z.ltb_spec (size h) (capacity h)); [lia|].
      apply in_map_iff in He as (i & <- & Hi). apply (root_max_ok (cells h) (size h)); auto. apply in_zrange; auto.
Qed.
End Heap.
